(** Proofs about the Kullback-Leibler tests of lognormality. *)
From Coquelicot Require Import Coquelicot.
From Verif Require Import Base EdfModel NormalLaw ExpModel NormModel LognormModel LogKLSpec.
From Coq Require Import Lra Lia.

(** *** the Gaussian integrals *)
Lemma norm_pdf_derive x : is_derive norm_pdf x (- x * norm_pdf x).
Proof.
  unfold norm_pdf. pose proof sqrt_2PI_pos.
  apply (is_derive_ext (fun x => / sqrt (2 * PI) * gauss x)); [intros t; change (@eq R (/ sqrt (2 * PI) * gauss t) (gauss t / sqrt (2 * PI))); field; lra|].
  replace (- x * (gauss x / sqrt (2 * PI))) with (/ sqrt (2 * PI) * (- x * gauss x)) by (field; lra).
  apply (is_derive_scal gauss). apply gauss_derive.
Qed.
Lemma norm_pdf_shift k z : exp (k ^ 2 / 2) * norm_pdf (z - k) = exp (k * z) * norm_pdf z.
Proof.
  unfold norm_pdf, gauss, Rdiv. rewrite <- !Rmult_assoc, <- !exp_plus. f_equal. f_equal. field.
Qed.
Lemma norm_pdf_cont x : continuous norm_pdf x.
Proof. apply (@ex_derive_continuous R_AbsRing R_NormedModule). eexists. apply norm_pdf_derive. Qed.
Definition prim (a b c k z : R) : R :=
  exp (k ^ 2 / 2) * ((a + b * k + c * (1 + k ^ 2)) * norm_cdf (z - k) - (b + c * (z + k)) * norm_pdf (z - k)).
Lemma prim_derive a b c k z : is_derive (prim a b c k) z ((a + b * z + c * z ^ 2) * exp (k * z) * norm_pdf z).
Proof.
  unfold prim. replace ((a + b * z + c * z ^ 2) * exp (k * z) * norm_pdf z)
    with (exp (k ^ 2 / 2) * ((a + b * k + c * (1 + k ^ 2)) * norm_pdf (z - k) - (c * norm_pdf (z - k) + (b + c * (z + k)) * (- (z - k) * norm_pdf (z - k))))).
  2:{ rewrite (Rmult_assoc _ (exp (k * z))), <- norm_pdf_shift. ring. }
  apply (is_derive_scal (fun z => (a + b * k + c * (1 + k ^ 2)) * norm_cdf (z - k) - (b + c * (z + k)) * norm_pdf (z - k))).
  apply (is_derive_minus (fun z => (a + b * k + c * (1 + k ^ 2)) * norm_cdf (z - k)) (fun z => (b + c * (z + k)) * norm_pdf (z - k))).
  - apply (is_derive_scal (fun z => norm_cdf (z - k))).
    replace (norm_pdf (z - k)) with (scal 1 (norm_pdf (z - k))) by (unfold scal; simpl; unfold mult; simpl; ring).
    apply (is_derive_comp norm_cdf (fun z => z - k)); [apply norm_cdf_derive|]. auto_derive; auto; ring.
  - apply (is_derive_mult (fun z => b + c * (z + k)) (fun z => norm_pdf (z - k))).
    + auto_derive; auto; ring.
    + replace (- (z - k) * norm_pdf (z - k)) with (scal 1 (- (z - k) * norm_pdf (z - k))) by (unfold scal; simpl; unfold mult; simpl; ring).
      apply (is_derive_comp norm_pdf (fun z => z - k)); [apply norm_pdf_derive|]. auto_derive; auto; ring.
    + intros; apply Rmult_comm.
Qed.
Lemma gauss_le w : w <> 0 -> gauss w <= 2 / w ^ 2.
Proof.
  intros H. unfold gauss. rewrite exp_Ropp. assert (0 < w ^ 2) by nra.
  replace (2 / w ^ 2) with (/ (w ^ 2 / 2)) by (field; lra). apply Rinv_le_contravar; [lra|].
  pose proof (exp_ineq1_le (w ^ 2 / 2)). lra.
Qed.
(** the part that vanishes at infinity *)
Lemma tail_bound b c k w : 1 <= Rabs w -> Rabs ((b + c * (w + k + k)) * norm_pdf w) <= 2 * (Rabs b + 2 * Rabs (c * k) + Rabs c) / (sqrt (2 * PI) * Rabs w).
Proof.
  intros H. pose proof sqrt_2PI_pos as S. assert (W : 0 < Rabs w) by lra. assert (w <> 0) by (intros ->; rewrite Rabs_R0 in W; lra).
  rewrite Rabs_mult, (Rabs_pos_eq (norm_pdf w)) by (left; apply norm_pdf_pos).
  assert (A : Rabs (b + c * (w + k + k)) <= (Rabs b + 2 * Rabs (c * k) + Rabs c) * Rabs w).
  { replace (b + c * (w + k + k)) with (b + (2 * (c * k) + c * w)) by ring. eapply Rle_trans; [apply Rabs_triang|].
    pose proof (Rabs_triang (2 * (c * k)) (c * w)). rewrite (Rabs_mult 2), (Rabs_pos_eq 2), (Rabs_mult c w) in H1 by lra.
    pose proof (Rabs_pos b). pose proof (Rabs_pos (c * k)). nra. }
  assert (G : norm_pdf w <= 2 / (Rabs w ^ 2) / sqrt (2 * PI)).
  { unfold norm_pdf, Rdiv. apply Rmult_le_compat_r; [left; apply Rinv_0_lt_compat, S|]. rewrite pow2_abs. now apply gauss_le. }
  eapply Rle_trans; [apply Rmult_le_compat; [apply Rabs_pos|left; apply norm_pdf_pos|exact A|exact G]|].
  right. field. lra.
Qed.
Lemma lim_tail b c k (x : Rbar) : (x = p_infty \/ x = m_infty) ->
  filterlim (fun z => (b + c * (z + k)) * norm_pdf (z - k)) (Rbar_locally x) (locally 0).
Proof.
  intros Hx P [eps HP]. set (M := 2 * (Rabs b + 2 * Rabs (c * k) + Rabs c)).
  assert (M0 : 0 <= M) by (unfold M; pose proof (Rabs_pos b); pose proof (Rabs_pos (c * k)); pose proof (Rabs_pos c); lra).
  pose proof sqrt_2PI_pos as S. set (B := Rmax 1 ((M + 1) / (sqrt (2 * PI) * eps))).
  assert (K : forall z, B < Rabs (z - k) -> P ((b + c * (z + k)) * norm_pdf (z - k))).
  { intros z Hz. apply HP. unfold ball; simpl; unfold AbsRing_ball, abs, minus, plus, opp; simpl.
    assert (B1 : 1 <= B) by apply Rmax_l. assert (B2 : (M + 1) / (sqrt (2 * PI) * eps) <= B) by apply Rmax_r.
    rewrite Ropp_0, Rplus_0_r. replace (z + k) with (z - k + k + k) by ring.
    eapply Rle_lt_trans; [apply tail_bound; lra|]. fold M. pose proof (cond_pos eps) as He.
    assert (D : 0 < sqrt (2 * PI) * Rabs (z - k)) by (apply Rmult_lt_0_compat; lra).
    apply (Rmult_lt_reg_r (sqrt (2 * PI) * Rabs (z - k))); [exact D|]. unfold Rdiv. rewrite Rmult_assoc, Rinv_l, Rmult_1_r by lra.
    assert (E : M + 1 <= eps * (sqrt (2 * PI) * B)).
    { assert (Q : 0 < sqrt (2 * PI) * eps) by (apply Rmult_lt_0_compat; lra).
      apply (Rmult_le_compat_r (sqrt (2 * PI) * eps)) in B2; [|lra]. unfold Rdiv in B2. rewrite Rmult_assoc, Rinv_l, Rmult_1_r in B2 by lra. lra. }
    assert (F : sqrt (2 * PI) * B <= sqrt (2 * PI) * Rabs (z - k)) by (apply Rmult_le_compat_l; lra).
    apply (Rmult_le_compat_l eps) in F; lra. }
  destruct Hx as [-> | ->].
  - exists (k + B). intros z Hz. apply K. assert (0 < B) by (pose proof (Rmax_l 1 ((M + 1) / (sqrt (2 * PI) * eps))); unfold B; lra). rewrite Rabs_pos_eq by lra. lra.
  - exists (k - B). intros z Hz. apply K. assert (0 < B) by (pose proof (Rmax_l 1 ((M + 1) / (sqrt (2 * PI) * eps))); unfold B; lra). rewrite Rabs_left by lra. lra.
Qed.
Lemma lim_cdf_p k : filterlim (fun z => norm_cdf (z - k)) (Rbar_locally p_infty) (locally 1).
Proof.
  intros P [eps HP]. pose proof (cond_pos eps) as He.
  destruct (norm_cdf_above (Rmax (1 - eps / 2) 0)) as (x & Hx & Hc); [unfold Rmax; destruct (Rle_dec (1 - eps / 2) 0); lra|].
  exists (x + k). intros z Hz. apply HP. unfold ball; simpl; unfold AbsRing_ball, abs, minus, plus, opp; simpl.
  pose proof (norm_cdf_bounds (z - k)). assert (norm_cdf x <= norm_cdf (z - k)) by (apply norm_cdf_le; lra).
  pose proof (Rmax_l (1 - eps / 2) 0). rewrite Rabs_left by lra. lra.
Qed.
Lemma lim_cdf_m k : filterlim (fun z => norm_cdf (z - k)) (Rbar_locally m_infty) (locally 0).
Proof.
  intros P [eps HP]. pose proof (cond_pos eps) as He.
  destruct (norm_cdf_above (Rmax (1 - eps / 2) 0)) as (x & Hx & Hc); [unfold Rmax; destruct (Rle_dec (1 - eps / 2) 0); lra|].
  exists (k - x). intros z Hz. apply HP. unfold ball; simpl; unfold AbsRing_ball, abs, minus, plus, opp; simpl.
  pose proof (norm_cdf_bounds (z - k)). assert (norm_cdf (z - k) <= norm_cdf (- x)) by (apply norm_cdf_le; lra).
  rewrite norm_cdf_sym in H0. pose proof (Rmax_l (1 - eps / 2) 0). rewrite Rabs_pos_eq by lra. lra.
Qed.
Lemma prim_lim a b c k x l : (x = p_infty \/ x = m_infty) -> filterlim (fun z => norm_cdf (z - k)) (Rbar_locally x) (locally l) ->
  filterlim (prim a b c k) (Rbar_locally x) (locally (exp (k ^ 2 / 2) * ((a + b * k + c * (1 + k ^ 2)) * l))).
Proof.
  intros Hx Hl. unfold prim.
  replace (exp (k ^ 2 / 2) * ((a + b * k + c * (1 + k ^ 2)) * l)) with (scal (exp (k ^ 2 / 2)) (plus (scal (a + b * k + c * (1 + k ^ 2)) l) (opp 0)))
    by (unfold scal, plus, opp; simpl; unfold mult; simpl; ring).
  apply (filterlim_comp _ _ _ (fun z => (a + b * k + c * (1 + k ^ 2)) * norm_cdf (z - k) - (b + c * (z + k)) * norm_pdf (z - k))
    (fun u => scal (exp (k ^ 2 / 2)) u) _ (locally (plus (scal (a + b * k + c * (1 + k ^ 2)) l) (opp 0)))).
  2:{ apply (filterlim_scal_r (V := R_NormedModule)). }
  apply (filterlim_ext (fun z => plus (scal (a + b * k + c * (1 + k ^ 2)) (norm_cdf (z - k))) (opp ((b + c * (z + k)) * norm_pdf (z - k))))); [reflexivity|].
  eapply filterlim_comp_2; [| |apply (filterlim_plus (V := R_NormedModule))].
  - apply (filterlim_comp _ _ _ (fun z => norm_cdf (z - k)) (fun u => scal (a + b * k + c * (1 + k ^ 2)) u) _ (locally l)); [exact Hl|].
    apply (filterlim_scal_r (V := R_NormedModule)).
  - apply (filterlim_comp _ _ _ (fun z => (b + c * (z + k)) * norm_pdf (z - k)) opp _ (locally 0)); [apply lim_tail, Hx|].
    apply (filterlim_opp (V := R_NormedModule)).
Qed.
Lemma gauss_integral a b c k :
  is_RInt_gen (fun z => (a + b * z + c * z ^ 2) * exp (k * z) * norm_pdf z) (Rbar_locally m_infty) (Rbar_locally p_infty)
    (exp (k ^ 2 / 2) * (a + b * k + c * (1 + k ^ 2))).
Proof.
  assert (Lim : filterlim (fun ab : R * R => plus (prim a b c k (snd ab)) (opp (prim a b c k (fst ab))))
     (filter_prod (Rbar_locally m_infty) (Rbar_locally p_infty)) (locally (exp (k ^ 2 / 2) * (a + b * k + c * (1 + k ^ 2))))).
  { replace (exp (k ^ 2 / 2) * (a + b * k + c * (1 + k ^ 2)))
      with (plus (exp (k ^ 2 / 2) * ((a + b * k + c * (1 + k ^ 2)) * 1)) (opp (exp (k ^ 2 / 2) * ((a + b * k + c * (1 + k ^ 2)) * 0))))
      by (unfold plus, opp; simpl; ring).
    eapply filterlim_comp_2; [| |apply (filterlim_plus (V := R_NormedModule))].
    - apply (filterlim_comp _ _ _ (@snd R R) (prim a b c k) _ (Rbar_locally p_infty)); [apply filterlim_snd|]. apply prim_lim; [auto|apply lim_cdf_p].
    - apply (filterlim_comp _ _ _ (fun ab : R * R => prim a b c k (fst ab)) opp _ (locally (exp (k ^ 2 / 2) * ((a + b * k + c * (1 + k ^ 2)) * 0)))).
      + apply (filterlim_comp _ _ _ (@fst R R) (prim a b c k) _ (Rbar_locally m_infty)); [apply filterlim_fst|]. apply prim_lim; [auto|apply lim_cdf_m].
      + apply (filterlim_opp (V := R_NormedModule)). }
  intros P HP. specialize (Lim P HP). unfold filtermapi. unfold filtermap in Lim.
  revert Lim. apply filter_imp. intros [u v] H. simpl in *. eexists. split; [|exact H].
  apply (is_RInt_derive (prim a b c k) (fun z => (a + b * z + c * z ^ 2) * exp (k * z) * norm_pdf z)).
  - intros x _. apply prim_derive.
  - intros x _. apply (continuous_mult (fun z => (a + b * z + c * z ^ 2) * exp (k * z)) norm_pdf); [|apply norm_pdf_cont].
    apply (ex_derive_continuous (fun z => (a + b * z + c * z ^ 2) * exp (k * z))). auto_derive. trivial.
Qed.
Lemma normal_mean_ext f g v : (forall z, f z = g z) -> normal_mean f v -> normal_mean g v.
Proof.
  intros E H. unfold normal_mean in *. revert H. apply is_RInt_gen_ext. apply filter_forall. intros ab x _. now rewrite E.
Qed.
Lemma normal_mean_plus f g u v : normal_mean f u -> normal_mean g v -> normal_mean (fun z => f z + g z) (u + v).
Proof.
  intros F G. unfold normal_mean in *. pose proof (is_RInt_gen_plus _ _ _ _ F G) as H. revert H. apply is_RInt_gen_ext.
  apply filter_forall. intros ab x _. unfold plus; simpl. ring.
Qed.
Lemma normal_mean_poly a b c k : normal_mean (fun z => (a + b * z + c * z ^ 2) * exp (k * z)) (exp (k ^ 2 / 2) * (a + b * k + c * (1 + k ^ 2))).
Proof. apply gauss_integral. Qed.

(** *** the variance *)
Definition infl (r z : R) : R := (2 + r ^ 2 - r * z) * (exp (r * z) * exp (- (r ^ 2 / 2))) - (r * z + 2).
Lemma infl_derive r z : is_derive (contaminated r z) 0 (infl r z).
Proof.
  unfold contaminated, asymmetry_of_moments, infl, moment_m, moment_k. pose proof (exp_pos (r ^ 2 / 2)) as E.
  rewrite exp_Ropp. set (m := exp (r ^ 2 / 2)) in *. set (w := exp (r * z)).
  auto_derive.
  - split; [|split; auto]; replace ((1 + - 0) * m + 0 * w) with m by ring; lra.
  - replace ((1 + - 0) * m + 0 * w) with m by ring. field. lra.
Qed.
Lemma infl_mean r : normal_mean (infl r) 0.
Proof.
  pose proof (normal_mean_plus _ _ _ _ (normal_mean_poly ((2 + r ^ 2) * exp (- (r ^ 2 / 2))) (- r * exp (- (r ^ 2 / 2))) 0 r) (normal_mean_poly (-2) (- r) 0 0)) as H.
  replace 0 with (exp (r ^ 2 / 2) * ((2 + r ^ 2) * exp (- (r ^ 2 / 2)) + - r * exp (- (r ^ 2 / 2)) * r + 0 * (1 + r ^ 2)) + exp (0 ^ 2 / 2) * (-2 + - r * 0 + 0 * (1 + 0 ^ 2))).
  - revert H. apply normal_mean_ext. intros z. unfold infl. replace (exp (0 * z)) with 1 by (rewrite Rmult_0_l, exp_0; reflexivity). ring.
  - replace (0 ^ 2 / 2) with 0 by field. rewrite exp_0. rewrite exp_Ropp. pose proof (exp_pos (r ^ 2 / 2)). field. lra.
Qed.
Lemma infl_var r : normal_mean (fun z => infl r z ^ 2) (limit_variance r).
Proof.
  set (e := exp (- (r ^ 2 / 2))). set (al := 2 + r ^ 2).
  pose proof (normal_mean_plus _ _ _ _ (normal_mean_plus _ _ _ _
    (normal_mean_poly (al ^ 2 * e ^ 2) (- 2 * al * r * e ^ 2) (r ^ 2 * e ^ 2) (2 * r))
    (normal_mean_poly (-4 * al * e) (-2 * e * (al * r - 2 * r)) (2 * e * r ^ 2) r)) (normal_mean_poly 4 (4 * r) (r ^ 2) 0)) as H.
  assert (E1 : e * exp (r ^ 2 / 2) = 1) by (unfold e; rewrite <- exp_plus; replace (- (r ^ 2 / 2) + r ^ 2 / 2) with 0 by ring; apply exp_0).
  assert (E2 : e ^ 2 * exp ((2 * r) ^ 2 / 2) = exp (r ^ 2)) by (replace (e ^ 2) with (e * e) by ring; unfold e; rewrite <- !exp_plus; f_equal; field).
  match type of H with normal_mean _ ?v => replace (limit_variance r) with v end.
  - revert H. apply normal_mean_ext. intros z. unfold infl. fold e al. replace (exp (0 * z)) with 1 by (rewrite Rmult_0_l, exp_0; reflexivity).
    replace (exp (2 * r * z)) with (exp (r * z) ^ 2) by (replace (exp (r * z) ^ 2) with (exp (r * z) * exp (r * z)) by ring; rewrite <- exp_plus; f_equal; ring). ring.
  - replace (0 ^ 2 / 2) with 0 by field. rewrite exp_0. unfold limit_variance. rewrite <- E2. unfold al.
    transitivity (e ^ 2 * exp ((2 * r) ^ 2 / 2) * (r ^ 4 - 3 * r ^ 2 + 4) + (e * exp (r ^ 2 / 2)) * (-8 - 2 * r ^ 2) + (4 + r ^ 2)); [ring|].
    rewrite E1. ring.
Qed.
Lemma moments_normal r : normal_mean (fun z => exp (r * z)) (moment_m r) /\ normal_mean (fun z => z) 0 /\ normal_mean (fun z => exp (r * z) * z) (moment_k r).
Proof.
  split; [|split].
  - pose proof (normal_mean_poly 1 0 0 r) as H. match type of H with normal_mean _ ?v => replace (moment_m r) with v end.
    + revert H. apply normal_mean_ext. intros z. ring.
    + unfold moment_m. ring.
  - pose proof (normal_mean_poly 0 1 0 0) as H. match type of H with normal_mean _ ?v => replace 0 with v at 1 end.
    + revert H. apply normal_mean_ext. intros z. replace (exp (0 * z)) with 1 by (rewrite Rmult_0_l, exp_0; reflexivity). ring.
    + ring.
  - pose proof (normal_mean_poly 0 1 0 r) as H. match type of H with normal_mean _ ?v => replace (moment_k r) with v end.
    + revert H. apply normal_mean_ext. intros z. ring.
    + unfold moment_k. ring.
Qed.

(** *** bounds of the variance *)
Lemma grow f df s : 0 <= s -> (forall x, 0 <= x <= s -> is_derive f x (df x)) -> (forall x, 0 <= x <= s -> 0 <= df x) -> f 0 <= f s.
Proof.
  intros Hs Hd Hp. destruct (MVT_gen f 0 s df) as (c & Hc & E).
  - rewrite Rmin_left, Rmax_right by lra. intros x Hx. apply Hd. lra.
  - rewrite Rmin_left, Rmax_right by lra. intros x Hx. apply continuity_pt_filterlim.
    apply (@ex_derive_continuous R_AbsRing R_NormedModule). eexists. apply Hd. exact Hx.
  - rewrite Rmin_left, Rmax_right in Hc by lra. pose proof (Hp c Hc). nra.
Qed.
Definition vg (s : R) : R := exp s * (s ^ 2 - 3 * s + 4) - (4 + s).
Definition vg1 (s : R) : R := exp s * (s ^ 2 - s + 1) - 1.
Definition vg2 (s : R) : R := exp s * (s ^ 2 + s).
Lemma vg_derive s : is_derive vg s (vg1 s).
Proof. unfold vg, vg1. auto_derive; auto. ring. Qed.
Lemma vg1_derive s : is_derive vg1 s (vg2 s).
Proof. unfold vg1, vg2. auto_derive; auto. ring. Qed.
Lemma vg1_low s : 0 <= s -> s ^ 2 / 2 <= vg1 s.
Proof.
  intros Hs. pose proof (grow (fun t => vg1 t - t ^ 2 / 2) (fun t => vg2 t - t) s Hs) as H.
  cut (0 <= vg1 s - s ^ 2 / 2); [lra|]. replace 0 with (vg1 0 - 0 ^ 2 / 2) by (unfold vg1; rewrite exp_0; field). apply H.
  - intros x Hx. apply (is_derive_minus vg1 (fun t => t ^ 2 / 2)); [apply vg1_derive|]. auto_derive; auto. field.
  - intros x Hx. unfold vg2. pose proof (exp_ineq1_le x). assert (1 <= exp x) by lra. nra.
Qed.
Lemma vg_low s : 0 <= s -> s ^ 3 / 6 <= vg s.
Proof.
  intros Hs. pose proof (grow (fun t => vg t - t ^ 3 / 6) (fun t => vg1 t - t ^ 2 / 2) s Hs) as H.
  cut (0 <= vg s - s ^ 3 / 6); [lra|]. replace 0 with (vg 0 - 0 ^ 3 / 6) by (unfold vg; rewrite exp_0; field). apply H.
  - intros x Hx. apply (is_derive_minus vg (fun t => t ^ 3 / 6)); [apply vg_derive|]. auto_derive; auto. field.
  - intros x Hx. pose proof (vg1_low x). lra.
Qed.
Lemma vg2_up s t : 0 <= t <= s -> vg2 t <= exp (2 * s) * t.
Proof.
  intros H. unfold vg2. pose proof (exp_ineq1_le t). pose proof (exp_pos t).
  replace (2 * s) with (s + s) by ring. rewrite exp_plus.
  assert (E : exp t <= exp s) by (destruct (proj2 H) as [L|E]; [left; now apply exp_increasing|rewrite E; lra]).
  replace (t ^ 2 + t) with ((1 + t) * t) by ring. rewrite <- Rmult_assoc. apply Rmult_le_compat_r; [lra|].
  apply Rmult_le_compat; lra.
Qed.
Lemma vg1_up s t : 0 <= t <= s -> vg1 t <= exp (2 * s) * t ^ 2 / 2.
Proof.
  intros Ht. pose proof (grow (fun t => exp (2 * s) * t ^ 2 / 2 - vg1 t) (fun t => exp (2 * s) * t - vg2 t) t (proj1 Ht)) as H.
  cut (0 <= exp (2 * s) * t ^ 2 / 2 - vg1 t); [lra|]. replace 0 with (exp (2 * s) * 0 ^ 2 / 2 - vg1 0) by (unfold vg1; rewrite exp_0; field). apply H.
  - intros x Hx. apply (is_derive_minus (fun t => exp (2 * s) * t ^ 2 / 2) vg1); [|apply vg1_derive]. auto_derive; auto. field.
  - intros x Hx. pose proof (vg2_up s x). lra.
Qed.
Lemma vg_up s t : 0 <= t <= s -> vg t <= exp (2 * s) * t ^ 3 / 6.
Proof.
  intros Ht. pose proof (grow (fun t => exp (2 * s) * t ^ 3 / 6 - vg t) (fun t => exp (2 * s) * t ^ 2 / 2 - vg1 t) t (proj1 Ht)) as H.
  cut (0 <= exp (2 * s) * t ^ 3 / 6 - vg t); [lra|]. replace 0 with (exp (2 * s) * 0 ^ 3 / 6 - vg 0) by (unfold vg; rewrite exp_0; field). apply H.
  - intros x Hx. apply (is_derive_minus (fun t => exp (2 * s) * t ^ 3 / 6) vg); [|apply vg_derive]. auto_derive; auto. field.
  - intros x Hx. pose proof (vg1_up s x). lra.
Qed.
Lemma variance_vg r : limit_variance r = vg (r ^ 2).
Proof. unfold limit_variance, vg. ring. Qed.
Lemma variance_low r : r ^ 6 / 6 <= limit_variance r.
Proof. rewrite variance_vg. replace (r ^ 6) with ((r ^ 2) ^ 3) by ring. apply vg_low. nra. Qed.
Lemma variance_up r : limit_variance r <= exp (2 * r ^ 2) * r ^ 6 / 6.
Proof. rewrite variance_vg. replace (r ^ 6) with ((r ^ 2) ^ 3) by ring. apply vg_up. nra. Qed.
Lemma variance_pos r : r <> 0 -> 0 < limit_variance r.
Proof. intros H. pose proof (variance_low r). assert (0 < r ^ 6); [|lra]. replace (r ^ 6) with ((r ^ 3) ^ 2) by ring. apply pow2_gt_0. apply pow_nonzero, H. Qed.
