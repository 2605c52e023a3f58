(** Maximum likelihood: families fitted numerically, and the choice of a family. *)
From Coq Require Import ZArith String Ranalysis5.
From Verif Require Import Base NormModel MleModel MleSpec Analysis EdfProofs ExpRangeProofs MleProofs MleMoreProofs.
From Coq Require Import Lra Lia.
Local Open Scope R_scope.

Lemma exp_sum_lik f l : (forall x, In x l -> 0 <= f x) -> exp_sum_logpdf f l = likelihood f l.
Proof.
  intros H. unfold exp_sum_logpdf. destruct (forallb _ l) eqn:E.
  - rewrite lik_exp; [reflexivity|]. intros x Hx. rewrite forallb_forall in E. now apply Rltb_true, E.
  - assert (X : exists x, In x l /\ Rltb 0 (f x) = false).
    { clear H. induction l as [|y l IH]; [discriminate|]. simpl in E. destruct (Rltb 0 (f y)) eqn:Ey; [|exists y; simpl; auto]. destruct (IH E) as (x & Hx & ?). exists x. simpl. auto. }
    destruct X as (x & Hx & Ex). apply Rltb_false in Ex. symmetry. apply (lik_zero f l x); [trivial|]. specialize (H x Hx). lra.
Qed.
Lemma exp_le_inv a b : exp a <= exp b -> a <= b.
Proof. intros [H|H]; [left; now apply exp_lt_inv|right; now apply exp_inv]. Qed.
Lemma attains_max {P} (adm : P -> Prop) (L : P -> R) p : attains adm L p -> is_maximum adm L (L p).
Proof. intros (Hp & H). split; [exists p; auto|exact H]. Qed.
Lemma varied_all_equal c x0 l : In x0 l -> varied l -> all_equal c x0 l = false.
Proof.
  intros _ (x & y & Hx & Hy & N). destruct (Req_dec x x0) as [->|E]; [apply (all_equal_false c _ l y); auto|now apply (all_equal_false c _ l x)].
Qed.
Lemma varied_ne l : varied l -> l <> [].
Proof. intros (x & _ & Hx & _) ->. destruct Hx. Qed.
Lemma array_ok {A} c (r : result A) : c <> KList -> elementwise c r = r.
Proof. destruct c; [congruence|reflexivity..]. Qed.

Lemma gamma_pdf_nonneg G shape scale x : (forall x, 0 < x -> 0 < G x) -> 0 < shape -> 0 < scale -> 0 <= gamma_pdf G shape scale x.
Proof.
  intros HG Hs Hc. unfold gamma_pdf. destruct (Rltb 0 x); [|lra]. left. apply Rdiv_lt_0_compat; [apply Rmult_lt_0_compat; apply exp_pos|apply Rmult_lt_0_compat; auto].
Qed.
Lemma gamma_scaled G shape scale x : 0 < G shape -> 0 < scale -> loc_scale_pdf (gamma_pdf G shape 1) 0 scale x = gamma_pdf G shape scale x.
Proof.
  intros HG Hc. unfold loc_scale_pdf, gamma_pdf. rewrite Rminus_0_r. replace (x / scale / 1) with (x / scale) by (field; lra).
  replace (Rltb 0 (x / scale)) with (Rltb 0 x).
  - destruct (Rltb 0 x); field; lra.
  - assert (0 < / scale) by (now apply Rinv_0_lt_compat). destruct (Rltb_spec 0 x), (Rltb_spec 0 (x / scale)); trivial; unfold Rdiv in *; nra.
Qed.
Lemma gamma_fit_max G fit c l shape scale : (forall x, 0 < x -> 0 < G x) -> c <> KList -> (forall x, In x l -> 0 < x) -> varied l -> fit l = Ok (shape, scale) ->
  attains (fun p : R * R => 0 < fst p /\ 0 < snd p) (fun p => likelihood (gamma_pdf G (fst p) (snd p)) l) (shape, scale) ->
  exists v, lf_gamma (fun a => gamma_pdf G a 1) fit c l = Ok (Val v) /\
    is_maximum (fun p : R * R => 0 < fst p /\ 0 < snd p) (fun p => likelihood (gamma_pdf G (fst p) (snd p)) l) v.
Proof.
  intros HG Hc Hp Hv Hf Ha. pose proof Ha as ((H1 & H2) & _). cbn [fst snd] in *. exists (likelihood (gamma_pdf G shape scale) l). split; [|exact (attains_max _ _ _ Ha)].
  unfold lf_gamma. rewrite array_ok, positive_any by trivial. destruct l as [|x0 l']; [now apply varied_ne in Hv|]. rewrite varied_all_equal by (trivial; simpl; auto).
  rewrite Hf. cbn [bind]. do 2 f_equal. rewrite exp_sum_lik.
  - apply lik_ext. intros x _. apply gamma_scaled; auto.
  - intros x _. rewrite gamma_scaled by auto. apply gamma_pdf_nonneg; auto.
Qed.

Lemma ln_beta G a b x : (forall x, 0 < x -> 0 < G x) -> 0 < a -> 0 < b -> 0 < x < 1 ->
  ln (beta_pdf G a b x) = (ln (G (a + b)) - ln (G a) - ln (G b)) + (a - 1) * ln x + (b - 1) * ln (1 - x).
Proof.
  intros HG Ha Hb Hx. unfold beta_pdf. rewrite (proj2 (Rltb_true 0 x)), (proj2 (Rltb_true x 1)) by lra. cbn [andb]. unfold Rpower.
  assert (0 < G a * G b) by (apply Rmult_lt_0_compat; auto). assert (0 < G (a + b)) by (apply HG; lra). assert (0 < G (a + b) / (G a * G b)) by (now apply Rdiv_lt_0_compat).
  rewrite !ln_mult, !ln_exp, ln_quot, ln_mult by (auto; try apply exp_pos; apply Rmult_lt_0_compat; auto; apply exp_pos). ring.
Qed.
Lemma beta_pos G a b x : (forall x, 0 < x -> 0 < G x) -> 0 < a -> 0 < b -> 0 < x < 1 -> 0 < beta_pdf G a b x.
Proof.
  intros HG Ha Hb Hx. unfold beta_pdf. rewrite (proj2 (Rltb_true 0 x)), (proj2 (Rltb_true x 1)) by lra. cbn [andb]. unfold Rpower.
  repeat apply Rmult_lt_0_compat; try apply exp_pos. apply HG; lra. apply Rinv_0_lt_compat. apply Rmult_lt_0_compat; auto.
Qed.
Lemma beta_fit_max G fit c l a b : (forall x, 0 < x -> 0 < G x) -> c <> KList -> (forall x, In x l -> 0 < x < 1) -> varied l -> fit l = Ok (a, b) ->
  attains (fun p : R * R => 0 < fst p /\ 0 < snd p) (fun p => likelihood (beta_pdf G (fst p) (snd p)) l) (a, b) ->
  exists v, lf_beta (fun x => ln (G x)) fit c l = Ok (Val v) /\
    is_maximum (fun p : R * R => 0 < fst p /\ 0 < snd p) (fun p => likelihood (beta_pdf G (fst p) (snd p)) l) v.
Proof.
  intros HG Hc Hp Hv Hf Ha. pose proof Ha as ((H1 & H2) & _). cbn [fst snd] in *. exists (likelihood (beta_pdf G a b) l). split; [|exact (attains_max _ _ _ Ha)].
  unfold lf_beta. destruct l as [|x0 l'] eqn:El; [now apply varied_ne in Hv|]. rewrite <- El in *. rewrite array_ok by trivial.
  rewrite varied_all_equal by (trivial; rewrite El; simpl; auto).
  replace (existsb _ l) with false.
  - cbn [orb]. rewrite Hf. cbn [bind]. do 2 f_equal. rewrite lik_exp by (intros; apply beta_pos; auto). f_equal.
    rewrite (Rsum_map_ext (fun x => ln (beta_pdf G a b x)) (fun x => ((ln (G (a + b)) - ln (G a) - ln (G b)) + (a - 1) * ln x) + (b - 1) * ln (1 - x))) by (intros; apply ln_beta; auto).
    rewrite Rsum_map_plus, Rsum_map_plus, !Rsum_map_scal, Rsum_const_len. change (map (fun x => ln x) l) with (map ln l). ring.
  - symmetry. destruct (existsb _ l) eqn:E; [|reflexivity]. apply existsb_exists in E. destruct E as (x & Hx & E). apply orb_true_iff in E. rewrite !Rleb_true in E. specialize (Hp x Hx). lra.
Qed.
Lemma cauchy_pdf_pos loc scale x : 0 < scale -> 0 < cauchy_pdf loc scale x.
Proof. intros. unfold cauchy_pdf. pose proof PI_RGT_0. apply Rdiv_lt_0_compat; [lra|]. apply Rmult_lt_0_compat; [nra|]. pose proof (pow2_ge_0 ((x - loc) / scale)). lra. Qed.
Lemma cauchy_fit_max fit c l loc scale : varied l -> fit l = Ok (loc, scale) ->
  attains (fun p : R * R => 0 < snd p) (fun p => likelihood (cauchy_pdf (fst p) (snd p)) l) (loc, scale) ->
  exists v, lf_cauchy (cauchy_pdf 0 1) fit c l = Ok (Val v) /\
    is_maximum (fun p : R * R => 0 < snd p) (fun p => likelihood (cauchy_pdf (fst p) (snd p)) l) v.
Proof.
  intros Hv Hf Ha. pose proof Ha as (H & _). cbn [fst snd] in *. exists (likelihood (cauchy_pdf loc scale) l). split; [|exact (attains_max _ _ _ Ha)].
  assert (E : forall x, loc_scale_pdf (cauchy_pdf 0 1) loc scale x = cauchy_pdf loc scale x).
  { intros x. unfold loc_scale_pdf, cauchy_pdf. rewrite Rminus_0_r. pose proof PI_RGT_0. pose proof (pow2_ge_0 ((x - loc) / scale)).
    replace ((x - loc) / scale / 1) with ((x - loc) / scale) by (field; lra). set (q := ((x - loc) / scale) ^ 2) in *. field. lra. }
  unfold lf_cauchy. destruct l as [|x0 l']; [now apply varied_ne in Hv|]. rewrite varied_all_equal by (trivial; simpl; auto). rewrite Hf. cbn [bind]. rewrite (proj2 (Rleb_false scale 0)) by lra.
  do 2 f_equal. rewrite exp_sum_lik; [apply lik_ext; intros; apply E|]. intros x _. rewrite E. left. now apply cauchy_pdf_pos.
Qed.
Lemma t_fit_max pdf fit c l df loc scale : (forall df x, 0 < df -> 0 <= pdf df x) -> varied l -> fit l = Ok (df, loc, scale) ->
  attains (fun p : R * R * R => 0 < fst (fst p) /\ 0 < snd p) (fun p => likelihood (location_scale (pdf (fst (fst p))) (snd (fst p)) (snd p)) l) (df, loc, scale) ->
  exists v, lf_t pdf fit c l = Ok (Val v) /\
    is_maximum (fun p : R * R * R => 0 < fst (fst p) /\ 0 < snd p) (fun p => likelihood (location_scale (pdf (fst (fst p))) (snd (fst p)) (snd p)) l) v.
Proof.
  intros Hn Hv Hf Ha. pose proof Ha as ((H1 & H2) & _). cbn [fst snd] in *. exists (likelihood (location_scale (pdf df) loc scale) l). split; [|exact (attains_max _ _ _ Ha)].
  unfold lf_t. destruct l as [|x0 l']; [now apply varied_ne in Hv|]. rewrite varied_all_equal by (trivial; simpl; auto). rewrite Hf. cbn [bind].
  do 2 f_equal. apply exp_sum_lik. intros x _. unfold loc_scale_pdf. apply Rmult_le_pos; [auto|]. left. now apply Rinv_0_lt_compat.
Qed.
Lemma fisher_fit_max pdf fit c l d1 d2 scale : (forall d1 d2 x, 0 < d1 -> 0 < d2 -> 0 <= pdf d1 d2 x) -> c <> KList -> (forall x, In x l -> 0 < x) -> varied l -> fit l = Ok (d1, d2, scale) ->
  attains (fun p : R * R * R => 0 < fst (fst p) /\ 0 < snd (fst p) /\ 0 < snd p) (fun p => likelihood (location_scale (pdf (fst (fst p)) (snd (fst p))) 0 (snd p)) l) (d1, d2, scale) ->
  exists v, lf_fisher pdf fit c l = Ok (Val v) /\
    is_maximum (fun p : R * R * R => 0 < fst (fst p) /\ 0 < snd (fst p) /\ 0 < snd p) (fun p => likelihood (location_scale (pdf (fst (fst p)) (snd (fst p))) 0 (snd p)) l) v.
Proof.
  intros Hn Hc Hp Hv Hf Ha. pose proof Ha as ((H1 & H2 & H3) & _). cbn [fst snd] in *. exists (likelihood (location_scale (pdf d1 d2) 0 scale) l). split; [|exact (attains_max _ _ _ Ha)].
  unfold lf_fisher. rewrite array_ok, positive_any by trivial. destruct l as [|x0 l']; [now apply varied_ne in Hv|]. rewrite varied_all_equal by (trivial; simpl; auto). rewrite Hf. cbn [bind].
  do 2 f_equal. apply exp_sum_lik. intros x _. unfold loc_scale_pdf. apply Rmult_le_pos; [auto|]. left. now apply Rinv_0_lt_compat.
Qed.

(** *** chi-square: the scale is fitted too *)
Definition chi2_scale_admissible (p : R * R) : Prop := 0 < fst p /\ 0 < snd p.
Lemma chi2_pos G df x : (forall x, 0 < x -> 0 < G x) -> 0 < df -> 0 < x -> 0 < chi2_pdf G df x.
Proof.
  intros HG Hd Hx. unfold chi2_pdf. rewrite (proj2 (Rltb_true 0 x) Hx). apply Rdiv_lt_0_compat; apply Rmult_lt_0_compat; try apply exp_pos. apply HG. lra.
Qed.
Lemma chi2_nonneg G df x : (forall x, 0 < x -> 0 < G x) -> 0 < df -> 0 <= chi2_pdf G df x.
Proof. intros HG Hd. destruct (Rlt_dec 0 x) as [H|H]; [left; now apply chi2_pos|]. unfold chi2_pdf. rewrite (proj2 (Rltb_false 0 x)) by lra. lra. Qed.
Lemma chi2_scaled_pos G df s x : (forall x, 0 < x -> 0 < G x) -> 0 < df -> 0 < s -> 0 < x -> 0 < location_scale (chi2_pdf G df) 0 s x.
Proof. intros. unfold location_scale. rewrite Rminus_0_r. apply Rdiv_lt_0_compat; [apply chi2_pos; trivial; now apply Rdiv_lt_0_compat|trivial]. Qed.
Lemma ln_chi2_scaled G df s x : (forall x, 0 < x -> 0 < G x) -> 0 < df -> 0 < s -> 0 < x ->
  ln (location_scale (chi2_pdf G df) 0 s x) = (df / 2 - 1) * ln x - df / 2 * ln s - x / (2 * s) - (df / 2 * ln 2 + ln (G (df / 2))).
Proof.
  intros HG Hd Hs Hx. unfold location_scale. rewrite Rminus_0_r. assert (Hq : 0 < x / s) by (now apply Rdiv_lt_0_compat). pose proof (chi2_pos G df _ HG Hd Hq).
  rewrite ln_quot by trivial. unfold chi2_pdf. rewrite (proj2 (Rltb_true 0 _) Hq). assert (0 < G (df / 2)) by (apply HG; lra).
  rewrite ln_quot by (apply Rmult_lt_0_compat; trivial; apply exp_pos). rewrite !ln_mult by (trivial; apply exp_pos). unfold Rpower. rewrite !ln_exp, ln_quot by trivial. field. lra.
Qed.
Lemma sum_ln_chi2 G df s l : (forall x, 0 < x -> 0 < G x) -> 0 < df -> 0 < s -> (forall x, In x l -> 0 < x) ->
  Rsum (map (fun x => ln (location_scale (chi2_pdf G df) 0 s x)) l) =
  (df / 2 - 1) * Rsum (map ln l) - len l * (df / 2 * ln s) - Rsum l / (2 * s) - len l * (df / 2 * ln 2 + ln (G (df / 2))).
Proof.
  intros HG Hd Hs Hp. rewrite (Rsum_map_ext _ (fun x => (df / 2 - 1) * ln x - df / 2 * ln s - / (2 * s) * x - (df / 2 * ln 2 + ln (G (df / 2))))).
  - rewrite !Rsum_map_minus, !Rsum_map_scal, !Rsum_const_len, map_id. change (map (fun x => ln x) l) with (map ln l). field. lra.
  - intros x Hx. rewrite ln_chi2_scaled by auto. field. lra.
Qed.
Lemma chi2_scale_one G df x : location_scale (chi2_pdf G df) 0 1 x = chi2_pdf G df x.
Proof. unfold location_scale. replace ((x - 0) / 1) with x by field. field. Qed.
Lemma chi2_value G fit c l df s : (forall x, 0 < x -> 0 < G x) -> (forall x, In x l -> 0 < x) -> fit l = Ok (df, s) -> 0 < df -> 0 < s ->
  lf_chi_squared (chi2_pdf G) fit c l = Ok (Val (likelihood (location_scale (chi2_pdf G df) 0 s) l)).
Proof.
  intros HG Hp Hf Hd Hs. unfold lf_chi_squared. rewrite positive_any by trivial. rewrite Hf. cbn [bind]. do 2 f_equal. apply exp_sum_lik.
  intros x Hx. left. apply (chi2_scaled_pos G df s x); auto.
Qed.
Lemma ln_lt_sub1 y : 0 < y -> y <> 1 -> ln y < y - 1.
Proof.
  intros Hy N. destruct (Rle_lt_or_eq_dec _ _ (ln_le_sub1 y Hy)) as [H|H]; [trivial|]. exfalso.
  pose proof (exp_ineq1 (ln y)) as E. rewrite exp_ln in E by trivial. assert (L : ln y <> 0) by (intros L; apply N; apply ln_inv; [trivial|lra|now rewrite ln_1]). specialize (E L). lra.
Qed.
Lemma chi2_not_max G fit c l df s : gamma_like G -> l <> [] -> (forall x, In x l -> 0 < x) -> exp (mean (map ln l)) < mean l - 2 -> fit l = Ok (df, s) ->
  attains chi2_scale_admissible (fun p => likelihood (location_scale (chi2_pdf G (fst p)) 0 (snd p)) l) (df, s) ->
  exists v, lf_chi_squared (chi2_pdf G) fit c l = Ok (Val v) /\ ~ is_maximum (fun d => 0 < d) (fun d => likelihood (chi2_pdf G d) l) v.
Proof.
  intros (HG & HF) Hne Hp Hm Hf ((Hd & Hs) & Hbest). cbn [fst snd] in *. eexists. split; [apply (chi2_value G fit c l df s); trivial|]. intros ((d & Hd0 & E) & Hmax).
  pose proof (len_pos l Hne) as L. set (m := mean l) in *. assert (Sm : Rsum l = m * len l) by (unfold m, mean; field; lra).
  assert (Lm : Rsum (map ln l) = mean (map ln l) * len l) by (unfold mean; rewrite len_map; field; lra).
  pose proof (exp_pos (mean (map ln l))) as Ep. assert (Hm0 : 2 < m) by lra.
  assert (Pos : forall d s x, 0 < d -> 0 < s -> In x l -> 0 < location_scale (chi2_pdf G d) 0 s x) by (intros; apply chi2_scaled_pos; auto).
  assert (One : forall d, likelihood (chi2_pdf G d) l = likelihood (location_scale (chi2_pdf G d) 0 1) l) by (intros; apply lik_ext; intros; now rewrite chi2_scale_one).
  assert (Hq : 0 < m / d) by (apply Rdiv_lt_0_compat; lra).
  assert (Ed : d = m).
  { specialize (Hbest (d, m / d) (conj Hd0 Hq)). cbn [fst snd] in Hbest. rewrite <- E, One in Hbest. rewrite !lik_exp in Hbest by (intros; apply Pos; trivial; lra).
    assert (Hb : Rsum (map (fun x => ln (location_scale (chi2_pdf G d) 0 (m / d) x)) l) <= Rsum (map (fun x => ln (location_scale (chi2_pdf G d) 0 1 x)) l))
      by (now apply exp_le_inv).
    rewrite !sum_ln_chi2 in Hb by (trivial; lra). rewrite ln_1, Sm in Hb. replace (m * len l / (2 * (m / d))) with (len l * (d / 2)) in Hb by (field; lra).
    destruct (Req_dec (m / d) 1) as [E1|N1]; [apply (Rmult_eq_compat_r d) in E1; unfold Rdiv in E1; rewrite Rmult_assoc, Rinv_l in E1 by lra; lra|].
    exfalso. pose proof (ln_lt_sub1 _ Hq N1) as K. assert (d * (m / d) = m) by (field; lra).
    assert (d * ln (m / d) < m - d) by (apply (Rmult_lt_compat_l d) in K; lra). replace (m * len l / (2 * 1)) with (m * len l / 2) in Hb by field. nra. }
  subst d. assert (H2 : 0 < m - 2) by lra. specialize (Hmax (m - 2) H2). rewrite <- E, !One in Hmax. rewrite !lik_exp in Hmax by (intros; apply Pos; trivial; lra).
  assert (Hb : Rsum (map (fun x => ln (location_scale (chi2_pdf G (m - 2)) 0 1 x)) l) <= Rsum (map (fun x => ln (location_scale (chi2_pdf G m) 0 1 x)) l))
    by (now apply exp_le_inv).
  rewrite !sum_ln_chi2 in Hb by (trivial; lra). rewrite ln_1, Lm in Hb.
  assert (EG : G (m / 2) = (m - 2) / 2 * G ((m - 2) / 2)) by (rewrite <- HF by lra; f_equal; field).
  rewrite EG, ln_mult in Hb by (try apply HG; lra). rewrite ln_quot in Hb by lra.
  assert (K : mean (map ln l) < ln (m - 2)) by (rewrite <- (ln_exp (mean (map ln l))); now apply ln_increasing). nra.
Qed.

(** *** Wigner *)
Lemma wigner_value l r : (forall x, In x l -> Rabs x < r) -> 0 < r -> exp (- wigner_nll l r) = likelihood (wigner_pdf r) l.
Proof.
  intros H Hr. pose proof PI_RGT_0. assert (R2 : 0 < r ^ 2) by nra. assert (P : forall x, In x l -> 0 < r ^ 2 - x ^ 2).
  { intros x Hx. specialize (H x Hx). pose proof (Rabs_pos x). rewrite <- (pow2_abs x). nra. }
  assert (Q : 0 < 2 / (PI * r ^ 2)) by (apply Rdiv_lt_0_compat; [lra|now apply Rmult_lt_0_compat]).
  rewrite lik_exp.
  - unfold wigner_nll. rewrite Ropp_involutive. f_equal. rewrite (Rsum_map_ext (fun x => ln (wigner_pdf r x)) (fun x => ln (2 / (PI * r ^ 2)) + 0.5 * ln (r ^ 2 - x ^ 2))).
    + now rewrite Rsum_map_plus, Rsum_map_scal, Rsum_const_len.
    + intros x Hx. unfold wigner_pdf. rewrite (proj2 (Rleb_true _ r)) by (left; auto). specialize (P x Hx). rewrite ln_mult by (trivial; now apply sqrt_lt_R0).
      f_equal. rewrite <- (sqrt_sqrt (r ^ 2 - x ^ 2)) at 2 by lra. rewrite ln_mult by (now apply sqrt_lt_R0). lra.
  - intros x Hx. unfold wigner_pdf. rewrite (proj2 (Rleb_true _ r)) by (left; auto). apply Rmult_lt_0_compat; [trivial|apply sqrt_lt_R0; auto].
Qed.
Lemma wigner_exact minimise c l r : c <> KList -> varied l -> minimise (Rmaxl 0 (map Rabs l) + 1e-6) (Rmaxl 0 (map Rabs l) + 10) l = (true, r) -> (forall x, In x l -> Rabs x < r) ->
  attains (fun r => 0 < r) (fun r => likelihood (wigner_pdf r) l) r ->
  exists v, lf_wigner minimise c l = Ok (Val v) /\ is_maximum (fun r => 0 < r) (fun r => likelihood (wigner_pdf r) l) v.
Proof.
  intros Hc Hv Hm Hr Ha. exists (likelihood (wigner_pdf r) l). split; [|exact (attains_max _ _ _ Ha)]. pose proof Ha as (H0 & _).
  unfold lf_wigner. destruct l as [|x0 l'] eqn:El; [now apply varied_ne in Hv|]. rewrite <- El in *. rewrite varied_all_equal, array_ok by (trivial; rewrite El; simpl; auto). rewrite Hm. now rewrite wigner_value.
Qed.
Lemma wigner_pair a r : 0 < a -> a < r -> likelihood (wigner_pdf r) [a; - a] = (2 / PI) ^ 2 * ((r ^ 2 - a ^ 2) / (r ^ 2) ^ 2).
Proof.
  intros Ha Hr. pose proof PI_RGT_0. simpl likelihood. unfold wigner_pdf. rewrite Rabs_Ropp, (Rabs_pos_eq a) by lra. rewrite (proj2 (Rleb_true a r)) by lra.
  replace ((- a) ^ 2) with (a ^ 2) by ring. assert (0 < r ^ 2 - a ^ 2) by nra. rewrite Rmult_1_r.
  replace (2 / (PI * r ^ 2) * sqrt (r ^ 2 - a ^ 2) * (2 / (PI * r ^ 2) * sqrt (r ^ 2 - a ^ 2))) with ((2 / (PI * r ^ 2)) ^ 2 * (sqrt (r ^ 2 - a ^ 2) * sqrt (r ^ 2 - a ^ 2))) by ring.
  rewrite sqrt_sqrt by lra. field. split; lra.
Qed.
Lemma wigner_not_max minimise c a : c <> KList -> 25 <= a ->
  (forall r, minimise (a + 1e-6) (a + 10) [a; - a] = (true, r) -> a + 1e-6 <= r <= a + 10) ->
  exists v, lf_wigner minimise c [a; - a] = Ok (Val v) /\ ~ is_maximum (fun r => 0 < r) (fun r => likelihood (wigner_pdf r) [a; - a]) v.
Proof.
  intros Hc Ha Hr. pose proof PI_RGT_0 as PIp. unfold lf_wigner. rewrite varied_all_equal; [|simpl; auto|exists a, (- a); simpl; repeat split; auto; lra]. rewrite array_ok by trivial.
  replace (Rmaxl 0 (map Rabs [a; - a])) with a by (simpl; rewrite Rabs_Ropp, Rabs_pos_eq by lra; symmetry; apply Rmax_left; lra).
  assert (S2 : sqrt 2 * sqrt 2 = 2) by (apply sqrt_sqrt; lra). assert (S0 : 1 < sqrt 2) by (rewrite <- sqrt_1; apply sqrt_lt_1; lra).
  assert (B : likelihood (wigner_pdf (a * sqrt 2)) [a; - a] = (2 / PI) ^ 2 * / (4 * a ^ 2)).
  { rewrite wigner_pair by nra. replace ((a * sqrt 2) ^ 2) with (2 * a ^ 2) by (simpl; rewrite !Rmult_1_r; replace (a * sqrt 2 * (a * sqrt 2)) with (a * a * (sqrt 2 * sqrt 2)) by ring; rewrite S2; ring). field. split; lra. }
  assert (PP : 0 < (2 / PI) ^ 2) by (apply pow_lt, Rdiv_lt_0_compat; lra).
  destruct (minimise (a + 1e-6) (a + 10) [a; - a]) as (ok & r) eqn:E. destruct ok.
  - specialize (Hr r eq_refl). eexists. split; [reflexivity|]. intros (_ & M). specialize (M (a * sqrt 2) ltac:(nra)). rewrite B in M.
    rewrite wigner_value in M by (try lra; intros x [<-|[<-|[]]]; rewrite ?Rabs_Ropp, Rabs_pos_eq; lra). rewrite wigner_pair in M by lra.
    apply Rmult_le_reg_l in M; [|trivial]. set (u := r ^ 2) in *. assert (U0 : 0 < u) by (unfold u; nra). assert (U1 : u < 2 * a ^ 2) by (unfold u; nra).
    assert (4 * a ^ 2 * (u - a ^ 2) < u ^ 2) by nra. apply (Rmult_le_compat_l (4 * a ^ 2 * u ^ 2)) in M; [|nra].
    replace (4 * a ^ 2 * u ^ 2 * / (4 * a ^ 2)) with (u ^ 2) in M by (field; lra). replace (4 * a ^ 2 * u ^ 2 * ((u - a ^ 2) / u ^ 2)) with (4 * a ^ 2 * (u - a ^ 2)) in M by (field; lra). lra.
  - eexists. split; [reflexivity|]. intros (_ & M). specialize (M (a * sqrt 2) ltac:(nra)). rewrite B in M. assert (0 < / (4 * a ^ 2)) by (apply Rinv_0_lt_compat; nra). nra.
Qed.

(** *** Weibull *)
Lemma Rpower_pos a b : 0 < Rpower a b. Proof. apply exp_pos. Qed.
Lemma prod_lik f l : prod (map f l) = likelihood f l.
Proof. induction l as [|x l IH]; simpl; [reflexivity|]. unfold prod in *. simpl. now rewrite IH. Qed.
Lemma ln_weibull k lam x : 0 < k -> 0 < lam -> 0 < x -> ln (weibull_pdf k lam x) = ln k - k * ln lam + (k - 1) * ln x - Rpower x k / Rpower lam k.
Proof.
  intros Hk Hl Hx. unfold weibull_pdf. rewrite (proj2 (Rltb_true 0 x) Hx). assert (0 < k / lam) by (now apply Rdiv_lt_0_compat).
  rewrite ln_mult, (ln_mult (k / lam)) by (trivial; try apply exp_pos; apply Rmult_lt_0_compat; trivial; apply exp_pos). rewrite (ln_quot k lam) by trivial. unfold Rpower at 1. rewrite !ln_exp, ln_quot by trivial.
  replace (Rpower (x / lam) k) with (Rpower x k / Rpower lam k); [ring|]. unfold Rpower. rewrite ln_quot by trivial. unfold Rdiv. rewrite <- exp_Ropp, <- exp_plus. f_equal. ring.
Qed.
Lemma weibull_pos k lam x : 0 < k -> 0 < lam -> 0 < x -> 0 < weibull_pdf k lam x.
Proof. intros Hk Hl Hx. unfold weibull_pdf. rewrite (proj2 (Rltb_true 0 x) Hx). repeat apply Rmult_lt_0_compat; try apply exp_pos; trivial. now apply Rinv_0_lt_compat. Qed.
Lemma sum_ln_weibull k lam l : 0 < k -> 0 < lam -> (forall x, In x l -> 0 < x) ->
  Rsum (map (fun x => ln (weibull_pdf k lam x)) l) = len l * ln k - len l * (k * ln lam) + (k - 1) * Rsum (map ln l) - Rsum (map (fun x => Rpower x k) l) / Rpower lam k.
Proof.
  intros Hk Hl Hp. rewrite (Rsum_map_ext _ (fun x => (ln k - k * ln lam) + (k - 1) * ln x - / Rpower lam k * Rpower x k)).
  - rewrite Rsum_map_minus, Rsum_map_plus, !Rsum_map_scal, Rsum_const_len. change (map (fun x => ln x) l) with (map ln l). unfold Rdiv. ring.
  - intros x Hx. rewrite ln_weibull by auto. unfold Rdiv. ring.
Qed.
Definition wlam (k : R) (l : list R) : R := Rpower (mean (map (fun x => Rpower x k) l)) (1 / k).
Lemma power_sum_pos k l : l <> [] -> 0 < Rsum (map (fun x => Rpower x k) l).
Proof.
  intros Hne. apply Rsum_pos_exists.
  - intros y Hy. apply in_map_iff in Hy. destruct Hy as (x & <- & _). left. apply Rpower_pos.
  - destruct l as [|x l]; [congruence|]. exists (Rpower x k). split; [simpl; auto|apply Rpower_pos].
Qed.
Lemma wlam_pow k l : 0 < k -> l <> [] -> Rpower (wlam k l) k = Rsum (map (fun x => Rpower x k) l) / len l.
Proof.
  intros Hk Hne. pose proof (power_sum_pos k l Hne). pose proof (len_pos l Hne). unfold wlam. rewrite Rpower_mult. replace (1 / k * k) with 1 by (field; lra). unfold mean. rewrite len_map.
  apply Rpower_1. now apply Rdiv_lt_0_compat.
Qed.
Lemma weibull_profile k l lam : 0 < k -> l <> [] -> (forall x, In x l -> 0 < x) -> 0 < lam -> likelihood (weibull_pdf k lam) l <= likelihood (weibull_pdf k (wlam k l)) l.
Proof.
  intros Hk Hne Hp Hl. pose proof (len_pos l Hne) as L. pose proof (power_sum_pos k l Hne) as T0. assert (W0 : 0 < wlam k l) by apply Rpower_pos.
  rewrite !lik_exp by (intros; apply weibull_pos; auto). apply exp_mono. rewrite !sum_ln_weibull by trivial. rewrite wlam_pow by trivial. set (T := Rsum (map (fun x => Rpower x k) l)) in *.
  pose proof (rate_bound (len l) T (/ Rpower lam k) L T0 (Rinv_0_lt_compat _ (Rpower_pos _ _))) as K.
  rewrite ln_Rinv in K by apply Rpower_pos. replace (ln (Rpower lam k)) with (k * ln lam) in K by (unfold Rpower; now rewrite ln_exp).
  assert (E : k * ln (wlam k l) = ln (T / len l)). { pose proof (wlam_pow k l Hk Hne) as W. fold T in W. rewrite <- W. unfold Rpower. now rewrite ln_exp. }
  rewrite E. rewrite ln_quot by trivial. rewrite ln_quot in K by trivial. replace (T / (T / len l)) with (len l) by (field; lra). replace (len l / T * T) with (len l) in K by (field; lra).
  replace (T / Rpower lam k) with (/ Rpower lam k * T) by (unfold Rdiv; ring). lra.
Qed.
Lemma weibull_value root c l : c <> KList -> l <> [] -> (forall x, In x l -> 0 < x) -> 0 < root l -> weibull_g l 0.1 * weibull_g l 10 <= 0 ->
  lf_weibull root c l = Ok (Val (likelihood (weibull_pdf (root l) (wlam (root l) l)) l)).
Proof.
  intros Hc Hne Hp Hk Hg. unfold lf_weibull. rewrite array_ok, positive_any, match_ne by trivial. rewrite (proj2 (Rltb_false _ _) Hg). do 2 f_equal. fold (wlam (root l) l). rewrite prod_lik. apply lik_ext.
  intros x Hx. unfold weibull_pdf. now rewrite (proj2 (Rltb_true 0 x) (Hp x Hx)).
Qed.
(** derivative of the sum of weighted powers in the exponent *)
Lemma power_sum_deriv w l k : derivable_pt_lim (fun k => Rsum (map (fun x => w x * Rpower x k) l)) k (Rsum (map (fun x => w x * (Rpower x k * ln x)) l)).
Proof.
  induction l as [|x l IH]; simpl; [apply derivable_pt_lim_const|].
  apply (derivable_pt_lim_plus (fun k => w x * Rpower x k) (fun k => Rsum (map (fun x => w x * Rpower x k) l))); [|exact IH].
  apply (derivable_pt_lim_scal (fun k => Rpower x k)). unfold Rpower.
  replace (exp (k * ln x) * ln x) with (exp (k * ln x) * (1 * ln x)) by ring.
  apply (derivable_pt_lim_comp (fun k => k * ln x) exp); [|apply derivable_pt_lim_exp].
  replace (1 * ln x) with (1 * ln x + k * 0) by ring. apply (derivable_pt_lim_mult (fun k => k) (fun _ => ln x)); [apply derivable_pt_lim_id|apply derivable_pt_lim_const].
Qed.
Lemma critical_point f c a b d : a < c < b -> derivable_pt_lim f c d -> (forall x, a < x < b -> f x <= f c) -> d = 0.
Proof.
  intros Hc Hd Hm. set (pr := exist _ d Hd : derivable_pt f c). change d with (derive_pt f c pr).
  apply (deriv_maximum f a b c pr); [tauto|tauto|]. intros x H1 H2. apply Hm; auto.
Qed.
Lemma weibull_stationary k lam l : 0 < k -> 0 < lam -> (forall x, In x l -> 0 < x) ->
  (forall k', 0 < k' -> likelihood (weibull_pdf k' lam) l <= likelihood (weibull_pdf k lam) l) ->
  len l / k - len l * ln lam + Rsum (map ln l) - Rsum (map (fun x => Rpower (x / lam) k * ln (x / lam)) l) = 0.
Proof.
  intros Hk Hl Hp Hm.
  set (h := fun k => len l * ln k + (- len l * ln lam + Rsum (map ln l)) * k - Rsum (map (fun x => 1 * Rpower x k) (map (fun x => x / lam) l))).
  assert (Eh : forall k, 0 < k -> Rsum (map (fun x => ln (weibull_pdf k lam x)) l) = h k - Rsum (map ln l)).
  { intros q Hq. rewrite sum_ln_weibull by trivial. unfold h. rewrite map_map.
    rewrite (Rsum_map_ext (fun x => 1 * Rpower (x / lam) q) (fun x => / Rpower lam q * Rpower x q)).
    - rewrite Rsum_map_scal. unfold Rdiv. ring.
    - intros x Hx. unfold Rpower. rewrite ln_quot by auto. rewrite <- exp_Ropp, <- exp_plus, Rmult_1_l. f_equal. ring. }
  assert (D : derivable_pt_lim h k (len l * / k + (- len l * ln lam + Rsum (map ln l)) * 1 - Rsum (map (fun x => 1 * (Rpower x k * ln x)) (map (fun x => x / lam) l)))).
  { unfold h. apply (derivable_pt_lim_minus (fun k => len l * ln k + (- len l * ln lam + Rsum (map ln l)) * k)); [|apply (power_sum_deriv (fun _ => 1))].
    apply (derivable_pt_lim_plus (fun k => len l * ln k)).
    - apply (derivable_pt_lim_scal ln). now apply derivable_pt_lim_ln.
    - apply (derivable_pt_lim_scal (fun k => k)). apply derivable_pt_lim_id. }
  apply (critical_point h k 0 (k + 1)) in D; [| lra |].
  - rewrite map_map in D. rewrite (Rsum_map_ext (fun x => Rpower (x / lam) k * ln (x / lam)) (fun x => 1 * (Rpower (x / lam) k * ln (x / lam)))) by (intros; ring). unfold Rdiv at 1. lra.
  - intros q (Hq & _). specialize (Hm q Hq). rewrite !lik_exp in Hm by (intros; apply weibull_pos; auto).
    assert (Rsum (map (fun x => ln (weibull_pdf q lam x)) l) <= Rsum (map (fun x => ln (weibull_pdf k lam x)) l)) by (now apply exp_le_inv).
    rewrite !Eh in H by trivial. lra.
Qed.
Lemma weibull_max_root k l : 0 < k -> l <> [] -> (forall x, In x l -> 0 < x) -> weibull_g l k = 0 ->
  (forall k', 0 < k' -> likelihood (weibull_pdf k' (wlam k l)) l <= likelihood (weibull_pdf k (wlam k l)) l) -> mean (map (fun x => Rpower x k) l) = 1.
Proof.
  intros Hk Hne Hp Hg Hm. pose proof (len_pos l Hne) as L. assert (W0 : 0 < wlam k l) by apply Rpower_pos. pose proof (power_sum_pos k l Hne) as T0. pose proof (wlam_pow k l Hk Hne) as W.
  apply weibull_stationary in Hm; trivial. set (T := Rsum (map (fun x => Rpower x k) l)) in *. set (N := Rsum (map (fun x => Rpower x k * ln x) l)).
  assert (E : Rsum (map (fun x => Rpower (x / wlam k l) k * ln (x / wlam k l)) l) = len l / T * N - len l * ln (wlam k l)).
  { rewrite (Rsum_map_ext _ (fun x => len l / T * (Rpower x k * ln x) - (len l / T * ln (wlam k l)) * Rpower x k)).
    - rewrite Rsum_map_minus, !Rsum_map_scal. fold T N. field. lra.
    - intros x Hx. replace (Rpower (x / wlam k l) k) with (Rpower x k / Rpower (wlam k l) k).
      + rewrite W, ln_quot by auto. field. lra.
      + unfold Rpower. rewrite ln_quot by auto. unfold Rdiv. rewrite <- exp_Ropp, <- exp_plus. f_equal. ring. }
  rewrite E in Hm. unfold weibull_g in Hg. fold T N in Hg. set (c := mean (map (fun x => Rpower x k) l)) in *.
  assert (C0 : 0 < c) by (unfold c, mean; rewrite len_map; now apply Rdiv_lt_0_compat).
  unfold mean in Hg. rewrite len_map in Hg.
  assert (Z : ln c / k = 0).
  { assert (len l * ((1 - ln c) / k + Rsum (map ln l) / len l - N / T) = 0) by (rewrite Hg; ring).
    replace (len l * ((1 - ln c) / k + Rsum (map ln l) / len l - N / T)) with (len l / k - len l * (ln c / k) + Rsum (map ln l) - len l / T * N) in H by (field; lra). nra. }
  apply ln_inv; [trivial|lra|]. rewrite ln_1. apply (Rmult_eq_compat_r k) in Z. unfold Rdiv in Z. rewrite Rmult_assoc, Rinv_l, Rmult_0_l in Z by lra. lra.
Qed.
Lemma weibull_not_max root c l : c <> KList -> l <> [] -> (forall x, In x l -> 1 < x) -> 0 < root l -> weibull_g l (root l) = 0 ->
  exists v, lf_weibull root c l = Ok (Val v) /\ ~ is_maximum (fun p : R * R => 0 < fst p /\ 0 < snd p) (fun p => likelihood (weibull_pdf (fst p) (snd p)) l) v.
Proof.
  intros Hc Hne Hp Hk Hg. assert (Hp0 : forall x, In x l -> 0 < x) by (intros x Hx; specialize (Hp x Hx); lra). assert (W0 : 0 < wlam (root l) l) by apply Rpower_pos.
  destruct (Rle_dec (weibull_g l 0.1 * weibull_g l 10) 0) as [G|G].
  - eexists. split; [now apply weibull_value|]. intros (_ & M).
    assert (E : mean (map (fun x => Rpower x (root l)) l) = 1) by (apply weibull_max_root; trivial; intros k' Hk'; apply (M (k', wlam (root l) l)); auto).
    pose proof (len_pos l Hne) as L. unfold mean in E. rewrite len_map in E. apply (Rmult_eq_compat_r (len l)) in E. unfold Rdiv in E. rewrite Rmult_assoc, Rinv_l in E by lra.
    assert (Z : 0 < Rsum (map (fun x => Rpower x (root l) - 1) l)).
    { assert (Pw : forall x, In x l -> 1 < Rpower x (root l)).
      { intros x Hx. unfold Rpower. rewrite <- exp_0. apply exp_increasing. apply Rmult_lt_0_compat; [trivial|]. rewrite <- ln_1. apply ln_increasing; [lra|auto]. }
      apply Rsum_pos_exists.
      - intros y Hy. apply in_map_iff in Hy. destruct Hy as (x & <- & Hx). specialize (Pw x Hx). lra.
      - destruct l as [|x l']; [congruence|]. exists (Rpower x (root (x :: l')) - 1). split; [simpl; auto|]. specialize (Pw x (or_introl eq_refl)). lra. }
    rewrite Rsum_map_minus, Rsum_const_len in Z. lra.
  - exists 0. split.
    + unfold lf_weibull. rewrite array_ok, positive_any, match_ne by trivial. rewrite (proj2 (Rltb_true _ _)) by lra. reflexivity.
    + intros (_ & M). specialize (M (1, 1) ltac:(cbn; lra)). cbn [fst snd] in M. rewrite lik_exp in M by (intros; apply weibull_pos; auto; lra). pose proof (exp_pos (Rsum (map (fun x => ln (weibull_pdf 1 1 x)) l))). lra.
Qed.
(** the equation of the code has a root for the sample e, e^2 *)
Lemma weibull_g_continuous l k : l <> [] -> 0 < k -> continuity_pt (weibull_g l) k.
Proof.
  intros Hne Hk. pose proof (len_pos l Hne) as L. pose proof (power_sum_pos k l Hne) as T0.
  assert (C : forall w k, continuity_pt (fun k => Rsum (map (fun x => w x * Rpower x k) l)) k).
  { intros w q. apply derivable_continuous_pt. eexists. apply power_sum_deriv. }
  set (g := fun k => (1 - ln (Rsum (map (fun x => 1 * Rpower x k) l) / len l)) / k + mean (map ln l) - Rsum (map (fun x => ln x * Rpower x k) l) / Rsum (map (fun x => 1 * Rpower x k) l)).
  assert (E1 : forall k, Rsum (map (fun x => 1 * Rpower x k) l) = Rsum (map (fun x => Rpower x k) l)) by (intros; apply Rsum_map_ext; intros; ring).
  assert (Eg : forall q, g q = weibull_g l q).
  { intros q. unfold g, weibull_g. rewrite E1. unfold mean at 2. rewrite len_map. do 3 f_equal. apply map_ext. intros; ring. }
  assert (Cg : continuity_pt g k).
  { unfold g. apply (continuity_pt_minus (fun k => (1 - ln (Rsum (map (fun x => 1 * Rpower x k) l) / len l)) / k + mean (map ln l)) (fun k => Rsum (map (fun x => ln x * Rpower x k) l) / Rsum (map (fun x => 1 * Rpower x k) l))).
    - apply (continuity_pt_plus (fun k => (1 - ln (Rsum (map (fun x => 1 * Rpower x k) l) / len l)) / k) (fun _ => mean (map ln l))); [|apply continuity_const; red; reflexivity].
      apply (continuity_pt_div (fun k => 1 - ln (Rsum (map (fun x => 1 * Rpower x k) l) / len l)) (fun k => k)); [|apply derivable_continuous_pt, derivable_pt_id|lra].
      apply (continuity_pt_minus (fun _ => 1) (fun k => ln (Rsum (map (fun x => 1 * Rpower x k) l) / len l))); [apply continuity_const; red; reflexivity|].
      apply (continuity_pt_comp (fun k => Rsum (map (fun x => 1 * Rpower x k) l) / len l) ln).
      + apply (continuity_pt_div (fun k => Rsum (map (fun x => 1 * Rpower x k) l)) (fun _ => len l)); [apply C|apply continuity_const; red; reflexivity|lra].
      + apply derivable_continuous_pt. eexists. apply derivable_pt_lim_ln. rewrite E1. now apply Rdiv_lt_0_compat.
    - apply (continuity_pt_div (fun k => Rsum (map (fun x => ln x * Rpower x k) l)) (fun k => Rsum (map (fun x => 1 * Rpower x k) l))); [apply C|apply C|]. rewrite E1. lra. }
  intros e He. destruct (Cg e He) as (d & Hd & H). exists d. split; [trivial|]. intros x Hx. rewrite <- !Eg. now apply H.
Qed.
Definition e_sample : list R := [exp 1; exp 2].
Lemma weibull_g_e k : 0 < k -> weibull_g e_sample k = (1 - ln ((exp k + exp (2 * k)) / 2)) / k + 1.5 - (exp k + 2 * exp (2 * k)) / (exp k + exp (2 * k)).
Proof.
  intros Hk. unfold weibull_g, e_sample, mean, len. cbn [map Rsum length]. unfold Rpower. rewrite !ln_exp. simpl INR. rewrite !Rmult_1_r, !Rplus_0_r.
  replace (k * 2) with (2 * k) by ring. replace (1 + 1) with 2 by ring. rewrite (Rmult_comm (exp (2 * k)) 2). lra.
Qed.
Lemma weibull_g_low : 0 < weibull_g e_sample 0.1.
Proof.
  rewrite weibull_g_e by lra. pose proof (exp_pos 0.1) as P1. pose proof (exp_pos (2 * 0.1)) as P2. assert (M : exp 0.1 < exp (2 * 0.1)) by (apply exp_increasing; lra).
  assert (ln ((exp 0.1 + exp (2 * 0.1)) / 2) <= 2 * 0.1) by (rewrite <- (ln_exp (2 * 0.1)) at 2; apply ln_le; lra).
  assert ((exp 0.1 + 2 * exp (2 * 0.1)) / (exp 0.1 + exp (2 * 0.1)) <= 2). { apply (Rmult_le_reg_r (exp 0.1 + exp (2 * 0.1))); [lra|]. unfold Rdiv. rewrite Rmult_assoc, Rinv_l by lra. lra. }
  assert (8 <= (1 - ln ((exp 0.1 + exp (2 * 0.1)) / 2)) / 0.1) by lra.
  lra.
Qed.
Lemma weibull_g_high : weibull_g e_sample 10 < 0.
Proof.
  rewrite weibull_g_e by lra. pose proof (exp_pos 10) as P1. pose proof (exp_pos (2 * 10)) as P2.
  assert (ln (exp (2 * 10) / 2) <= ln ((exp 10 + exp (2 * 10)) / 2)) by (apply ln_le; lra). rewrite ln_quot, ln_exp in H by lra. pose proof (ln_le_sub1 2 ltac:(lra)).
  assert (1 <= (exp 10 + 2 * exp (2 * 10)) / (exp 10 + exp (2 * 10))). { apply (Rmult_le_reg_r (exp 10 + exp (2 * 10))); [lra|]. unfold Rdiv. rewrite Rmult_assoc, Rinv_l by lra. lra. }
  assert ((1 - ln ((exp 10 + exp (2 * 10)) / 2)) / 10 <= -1.8) by lra. lra.
Qed.
Lemma weibull_root_exists : exists k, 0.1 <= k <= 10 /\ weibull_g e_sample k = 0.
Proof.
  destruct (IVT_interv (fun k => - weibull_g e_sample k) 0.1 10) as (k & Hk & Ek).
  - intros a Ha. apply (continuity_pt_opp (weibull_g e_sample)). apply weibull_g_continuous; [discriminate|lra].
  - lra.
  - pose proof weibull_g_low. lra.
  - pose proof weibull_g_high. lra.
  - exists k. split; [trivial|lra].
Qed.

(** *** choosing a family *)
Lemma max_loop_all_ok {D} (fs : list (string * (D -> result likval))) d best r : max_loop fs d best = Ok r -> forall n f, In (n, f) fs -> exists v, f d = Ok v.
Proof.
  revert best. induction fs as [|(n0, f0) fs IH]; intros best H n f Hin; [destruct Hin|]. simpl in H. destruct (f0 d) as [v|] eqn:E; [|discriminate]. cbn [bind] in H.
  destruct Hin as [Hin|Hin]; [inversion Hin; subst; eauto|eapply IH; eauto].
Qed.
Lemma exceeds_trans a b c : exceeds a b = true -> exceeds b c = true -> exceeds a c = true.
Proof. destruct a, b, c; simpl; try discriminate; trivial. rewrite !Rltb_true. lra. Qed.
Lemma not_exceeds_trans a b c : exceeds b c = true -> exceeds a b = false -> exceeds a c = true \/ exceeds a b = false.
Proof. auto. Qed.
Lemma exceeds_mono a b c : exceeds b c = true -> exceeds a c = false -> exceeds a b = false.
Proof. intros H1 H2. destruct (exceeds a b) eqn:E; [|reflexivity]. now rewrite (exceeds_trans a b c E H1) in H2. Qed.
Lemma exceeds_irrefl a : exceeds a a = false.
Proof. destruct a; simpl; trivial. apply Rltb_false. lra. Qed.
Lemma max_loop_spec {D} (fs : list (string * (D -> result likval))) d best r : max_loop fs d best = Ok r ->
  (r = best \/ exists n f, In (n, f) fs /\ f d = Ok (snd r) /\ fst r = Some n /\ exceeds (snd r) (snd best) = true) /\
  (forall n f v, In (n, f) fs -> f d = Ok v -> exceeds v (snd r) = false).
Proof.
  revert best. induction fs as [|(n0, f0) fs IH]; intros best H; simpl in H.
  - inversion H; subst. split; [now left|intros n f v []].
  - destruct (f0 d) as [v0|] eqn:E0; [|discriminate]. cbn [bind] in H. apply IH in H. destruct H as (H1 & H2). destruct (exceeds v0 (snd best)) eqn:Ex; cbn [fst snd] in H1.
    + split.
      * right. destruct H1 as [-> | (n & f & Hin & Hf & Hn & He)]; [exists n0, f0; cbn; auto|]. exists n, f. split; [simpl; auto|]. repeat split; trivial. now apply (exceeds_trans _ v0).
      * intros n f v [Hin|Hin] Hv; [|eauto]. inversion Hin; subst. rewrite Hv in E0. inversion E0; subst. destruct H1 as [-> | (_ & _ & _ & _ & _ & He)]; [apply exceeds_irrefl|].
        cbn [snd] in He. destruct (exceeds v0 (snd r)) eqn:X; [|reflexivity]. pose proof (exceeds_trans _ _ _ X He) as K. now rewrite exceeds_irrefl in K.
    + split.
      * destruct H1 as [-> | (n & f & Hin & Hr)]; [now left|]. right. exists n, f. split; [simpl; auto|exact Hr].
      * intros n f v [Hin|Hin] Hv; [|eauto]. inversion Hin; subst. rewrite Hv in E0. inversion E0; subst. destruct H1 as [-> | (_ & _ & _ & _ & _ & He)]; [trivial|]. now apply (exceeds_mono _ _ (snd best)).
Qed.
Lemma module_never_ok S d r : find_max_probability_function S d = Ok r -> False.
Proof.
  unfold find_max_probability_function, find_max. destruct (max_loop _ d _) as [x|] eqn:E; [|discriminate]. intros _.
  destruct (max_loop_all_ok _ _ _ _ E "likelihood_function_binomial"%string bad_call) as (v & Hv); [simpl; auto|]. discriminate.
Qed.
