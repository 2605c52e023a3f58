(** Property C113: the beta statistics compare samples with the characteristics of the beta law. *)
From Coq Require Import String.
From Coquelicot Require Import Coquelicot.
From Verif Require Import Base DecModel EdfModel EdfSpec GraphModel NormalLaw ExpModel NormModel NormSpec BetaModel BetaSpec BetaLawSpec NormProofs NormAffProofs BetaProofs BetaClaims BetaLawProofs.
From Coq Require Import Lra Lia.
Local Open Scope string_scope.
Local Open Scope R_scope.

(** the law exists for all parameters: its density has a finite positive integral *)
Lemma C113_law_exists_holds : forall a b, 0 < a -> 0 < b -> exists c, beta_constant a b c.
Proof. exact constant_exists. Qed.

Lemma mean_law a b : 0 < a -> 0 < b -> beta_expects a b (fun x => x) (a / (a + b)).
Proof.
  intros Ha Hb. pose proof (poly_mean a b 0 1 0 0 0 Ha Hb) as H. replace (a / (a + b)) with (0 + 1 * raw a b 1 + 0 * raw a b 2 + 0 * raw a b 3 + 0 * raw a b 4).
  - revert H. apply expects_ext. intros; ring.
  - cbn [raw INR]. field. lra.
Qed.
Lemma central_law a b : 0 < a -> 0 < b -> let mu := a / (a + b) in
  beta_expects a b (fun x => (x - mu) ^ 2) (a * b / ((a + b) ^ 2 * (a + b + 1))) /\
  beta_expects a b (fun x => (x - mu) ^ 3) (2 * a * b * (b - a) / ((a + b) ^ 3 * (a + b + 1) * (a + b + 2))) /\
  beta_expects a b (fun x => (x - mu) ^ 4) (3 * a * b * (2 * (a + b) ^ 2 + a * b * (a + b - 6)) / ((a + b) ^ 4 * (a + b + 1) * (a + b + 2) * (a + b + 3))).
Proof.
  intros Ha Hb mu. repeat split.
  - pose proof (poly_mean a b (mu ^ 2) (- 2 * mu) 1 0 0 Ha Hb) as H.
    match type of H with beta_expects _ _ _ ?v => replace (a * b / ((a + b) ^ 2 * (a + b + 1))) with v end.
    + revert H. apply expects_ext. intros; ring.
    + unfold mu. cbn [raw INR]. field. lra.
  - pose proof (poly_mean a b (- mu ^ 3) (3 * mu ^ 2) (- 3 * mu) 1 0 Ha Hb) as H.
    match type of H with beta_expects _ _ _ ?v => replace (2 * a * b * (b - a) / ((a + b) ^ 3 * (a + b + 1) * (a + b + 2))) with v end.
    + revert H. apply expects_ext. intros; ring.
    + unfold mu. cbn [raw INR]. field. lra.
  - pose proof (poly_mean a b (mu ^ 4) (- 4 * mu ^ 3) (6 * mu ^ 2) (- 4 * mu) 1 Ha Hb) as H.
    match type of H with beta_expects _ _ _ ?v => replace (3 * a * b * (2 * (a + b) ^ 2 + a * b * (a + b - 6)) / ((a + b) ^ 4 * (a + b + 1) * (a + b + 2) * (a + b + 3))) with v end.
    + revert H. apply expects_ext. intros; ring.
    + unfold mu. cbn [raw INR]. field. lra.
Qed.
Lemma expects_scal a b k g v : beta_expects a b g v -> beta_expects a b (fun x => k * g x) (k * v).
Proof. intros (c & C & H). exists c. split; trivial. apply (over_scal _ k) in H. revert H. apply over_ext. intros; ring. Qed.
(** moment-based: mean and variance are those of the law *)
Lemma C113_moments_holds : forall B psi betaln A f l v, 0 < ba_alpha A -> 0 < ba_beta A ->
  In ("MomentBasedBetaGofStatistic", f) (beta_statistics B psi betaln A) -> nvalue (f l) = Ok (Some (Fin v)) ->
  exists mu var, 0 < var /\ beta_expects (ba_alpha A) (ba_beta A) (fun x => x) mu /\ beta_expects (ba_alpha A) (ba_beta A) (fun x => (x - mu) ^ 2) var /\
    v = len l * ((mean l - mu) ^ 2 + (variance1 l - var) ^ 2) / var.
Proof.
  intros B psi betaln A f l v Ha Hb H Hv. each H; try discriminate H. injection H as <-. cbn [nreads nvalue] in Hv. valid Hv l U.
  set (a := ba_alpha A) in *. set (b := ba_beta A) in *.
  unfold mb_beta in Hv. destruct (1 <? length l)%nat; [|discriminate]. apply num_inj in Hv as [_ ->].
  assert (V : 0 < beta_var a b) by (unfold beta_var; apply Rdiv_lt_0_compat; [nra|apply Rmult_lt_0_compat; [nra|lra]]).
  exists (beta_mean a b), (beta_var a b). split; [exact V|]. split; [now apply mean_law|]. split; [now apply central_law|].
  pose proof (sqrt_lt_R0 _ V) as S. pose proof (sqrt_def (beta_var a b) ltac:(lra)) as Q. pose proof (sqrt_def (len l) ltac:(apply pos_INR)) as QL.
  change (ssq l / (len l - 1)) with (variance1 l). set (s := sqrt (beta_var a b)) in *. set (r := sqrt (len l)) in *. rewrite <- QL, <- Q. field. lra.
Qed.
(** skewness-kurtosis: standardised third and fourth moments of the law *)
Lemma C113_skewness_kurtosis_holds : forall B psi betaln A f l v, 0 < ba_alpha A -> 0 < ba_beta A -> (4 <= length l)%nat ->
  In ("SkewnessKurtosisBetaGofStatistic", f) (beta_statistics B psi betaln A) -> nvalue (f l) = Ok (Some (Fin v)) ->
  exists mu sigma g1 k, 0 < sigma /\ beta_expects (ba_alpha A) (ba_beta A) (fun x => x) mu /\ beta_expects (ba_alpha A) (ba_beta A) (fun x => (x - mu) ^ 2) (sigma ^ 2) /\
    beta_expects (ba_alpha A) (ba_beta A) (fun x => ((x - mu) / sigma) ^ 3) g1 /\ beta_expects (ba_alpha A) (ba_beta A) (fun x => ((x - mu) / sigma) ^ 4) k /\
    v = len l * ((sample_skewness l - g1) ^ 2 / 6 + (sample_excess_kurtosis l - (k - 3)) ^ 2 / 24).
Proof.
  intros B psi betaln A f l v Ha Hb L H Hv. destruct (C88_beta_skewness_kurtosis_holds B psi betaln A f l v L H Hv) as [E _].
  set (a := ba_alpha A) in *. set (b := ba_beta A) in *. destruct (central_law a b Ha Hb) as (V2 & V3 & V4).
  set (mu := a / (a + b)) in *. set (var := a * b / ((a + b) ^ 2 * (a + b + 1))) in *.
  assert (V : 0 < var) by (unfold var; apply Rdiv_lt_0_compat; [nra|apply Rmult_lt_0_compat; [nra|lra]]).
  pose proof (sqrt_lt_R0 _ V) as S. exists mu, (sqrt var), (theoretical_skewness a b), (theoretical_excess_kurtosis a b + 3).
  split; [exact S|]. split; [now apply mean_law|]. split; [rewrite pow2_sqrt by lra; exact V2|].
  assert (SS : sqrt var = sqrt (a * b) / ((a + b) * sqrt (a + b + 1))).
  { unfold var. rewrite sqrt_div by nra. f_equal. rewrite sqrt_mult by nra. rewrite sqrt_pow2 by lra. reflexivity. }
  assert (P : 0 < sqrt (a * b)) by (apply sqrt_lt_R0; nra). assert (Q : 0 < sqrt (a + b + 1)) by (apply sqrt_lt_R0; lra).
  pose proof (sqrt_def (a * b) ltac:(nra)) as PP. pose proof (sqrt_def (a + b + 1) ltac:(lra)) as QQ.
  split; [|split].
  - apply (expects_scal _ _ (/ sqrt var ^ 3)) in V3. replace (theoretical_skewness a b) with (/ sqrt var ^ 3 * (2 * a * b * (b - a) / ((a + b) ^ 3 * (a + b + 1) * (a + b + 2)))).
    + revert V3. apply expects_ext. intros x. field. lra.
    + rewrite SS. unfold theoretical_skewness. set (p := sqrt (a * b)) in *. set (q := sqrt (a + b + 1)) in *.
      replace (2 * a * b * (b - a)) with (2 * (p * p) * (b - a)) by (rewrite PP; ring).
      replace ((a + b) ^ 3 * (a + b + 1) * (a + b + 2)) with ((a + b) ^ 3 * (q * q) * (a + b + 2)) by (rewrite QQ; ring).
      field. lra.
  - apply (expects_scal _ _ (/ sqrt var ^ 4)) in V4. match type of V4 with beta_expects _ _ _ ?w => replace (theoretical_excess_kurtosis a b + 3) with w end.
    + revert V4. apply expects_ext. intros x. field. lra.
    + replace (sqrt var ^ 4) with ((sqrt var ^ 2) ^ 2) by ring. rewrite pow2_sqrt by lra. unfold var, theoretical_excess_kurtosis. field. repeat split; lra.
  - rewrite E. replace (theoretical_excess_kurtosis a b + 3 - 3) with (theoretical_excess_kurtosis a b) by ring. reflexivity.
Qed.
Lemma log_law psi a b : digamma_like psi -> 0 < a -> 0 < b -> beta_expects a b ln (psi a - psi (a + b)).
Proof.
  intros D Ha Hb. destruct (log_digamma psi a b D Ha Hb) as (c & C & H). exists c. split; trivial. apply (over_scal _ (/ c)) in H. destruct C as [Pc _].
  replace (psi a - psi (a + b)) with (/ c * ((psi a - psi (a + b)) * c)) by (field; lra).
  revert H. apply over_ext. intros; unfold Rdiv; ring.
Qed.
(** ratio: the geometric mean over the mean of the law *)
Lemma C113_ratio_holds : forall B psi betaln A f l v, digamma_like psi -> 0 < ba_alpha A -> 0 < ba_beta A ->
  In ("RatioBetaGofStatistic", f) (beta_statistics B psi betaln A) -> nvalue (f l) = Ok (Some (Fin v)) ->
  exists mu lambda g, beta_expects (ba_alpha A) (ba_beta A) (fun x => x) mu /\ beta_expects (ba_alpha A) (ba_beta A) ln lambda /\
    ((forall x, In x l -> 0 < x) -> g = exp (mean (map ln l))) /\ (In 0 l -> g = 0) /\
    v = sqrt (len l) * Rabs (g / mean l - exp lambda / mu).
Proof.
  intros B psi betaln A f l v D Ha Hb H Hv. each H; try discriminate H. injection H as <-. cbn [nreads nvalue] in Hv. valid Hv l U.
  unfold rt_beta in Hv. destruct l as [|x0 l0]; [discriminate|]. set (l := x0 :: l0) in *. destruct (Reqb_spec (mean l) 0) as [|N]; [discriminate|].
  apply num_inj in Hv as [_ ->]. exists (ba_alpha A / (ba_alpha A + ba_beta A)), (psi (ba_alpha A) - psi (ba_alpha A + ba_beta A)), (geometric_mean l).
  split; [now apply mean_law|]. split; [now apply log_law|]. unfold geometric_mean. split; [|split; [|reflexivity]].
  - intros Pl. destruct (existsb (fun x => Reqb x 0) l) eqn:X; trivial. apply existsb_exists in X as (x & Hx & E). destruct (Reqb_spec x 0); [|discriminate]. specialize (Pl x Hx). lra.
  - intros Z. assert (X : existsb (fun x => Reqb x 0) l = true); [|now rewrite X]. apply existsb_exists. exists 0. split; trivial. destruct (Reqb_spec 0 0); trivial. easy.
Qed.
Lemma constant_mirror a b c : beta_constant a b c -> beta_constant b a c.
Proof. intros [P H]. split; trivial. apply over_mirror in H. revert H. apply over_ext. intros x _. unfold beta_weight. replace (1 - (1 - x)) with x by ring. ring. Qed.
Lemma expects_mirror a b g v : beta_expects a b g v -> beta_expects b a (fun x => g (1 - x)) v.
Proof.
  intros (c & C & H). exists c. split; [now apply constant_mirror|]. apply over_mirror in H. revert H. apply over_ext. intros x _. unfold beta_weight.
  replace (1 - (1 - x)) with x by ring. unfold Rdiv. ring.
Qed.
Lemma constant_unique a b c d : beta_constant a b c -> beta_constant a b d -> c = d.
Proof.
  intros [_ H] [_ K]. rewrite <- (is_RInt_gen_unique (V := R_CompleteNormedModule) (beta_weight a b) c H). exact (is_RInt_gen_unique (V := R_CompleteNormedModule) (beta_weight a b) d K).
Qed.
Lemma ln_weight a b x : ln (beta_weight a b x) = (a - 1) * ln x + (b - 1) * ln (1 - x).
Proof. unfold beta_weight. rewrite ln_mult by apply Rpower_pos. unfold Rpower. now rewrite !ln_exp. Qed.
Lemma entropy_law psi betaln a b c : 0 < a -> 0 < b -> beta_constant a b c -> betaln a b = ln c ->
  beta_expects a b ln (psi a - psi (a + b)) -> beta_expects a b (fun x => ln (1 - x)) (psi b - psi (a + b)) ->
  beta_expects a b (fun x => - ln (beta_weight a b x / c)) (beta_entropy psi betaln a b).
Proof.
  intros Ha Hb C E (c1 & C1 & H1) (c2 & C2 & H2). rewrite (constant_unique _ _ _ _ C1 C) in H1. rewrite (constant_unique _ _ _ _ C2 C) in H2.
  exists c. split; trivial. destruct C as [P HC]. pose proof (over_plus _ _ _ _ (over_plus _ _ _ _ (over_scal _ (- (a - 1)) _ H1) (over_scal _ (- (b - 1)) _ H2)) (over_scal _ (ln c / c) _ HC)) as K.
  unfold beta_entropy. rewrite E.
  replace (ln c - (a - 1) * psi a - (b - 1) * psi b + (a + b - 2) * psi (a + b)) with (- (a - 1) * (psi a - psi (a + b)) + - (b - 1) * (psi b - psi (a + b)) + ln c / c * c) by (field; lra).
  revert K. apply over_ext. intros x Hx. rewrite ln_div by (trivial; apply mono_pos). rewrite ln_weight. field. lra.
Qed.
(** entropy: minus the mean logarithm of the density of the law *)
Lemma C113_entropy_holds : forall B psi betaln A f l v c, digamma_like psi -> 0 < ba_alpha A -> 0 < ba_beta A ->
  beta_constant (ba_alpha A) (ba_beta A) c -> betaln (ba_alpha A) (ba_beta A) = ln c ->
  In ("EntropyBetaGofStatistic", f) (beta_statistics B psi betaln A) -> nvalue (f l) = Ok (Some (Fin v)) ->
  exists h, beta_expects (ba_alpha A) (ba_beta A) (fun x => - ln (beta_weight (ba_alpha A) (ba_beta A) x / c)) h /\
    v = sqrt (len l) * Rabs (vasicek_estimate (rsort l) (length l / 4) - h).
Proof.
  intros B psi betaln A f l v c D Ha Hb C E H Hv. each H; try discriminate H. injection H as <-. cbn [nreads nvalue] in Hv. valid Hv l U.
  unfold ent_beta in Hv. destruct l as [|x0 l0]; [discriminate|]. set (l := x0 :: l0) in *. apply num_inj in Hv as [_ ->].
  exists (beta_entropy psi betaln (ba_alpha A) (ba_beta A)). split.
  - apply entropy_law; trivial; [now apply log_law|]. apply (expects_mirror _ _ ln). rewrite (Rplus_comm (ba_alpha A)). now apply log_law.
  - do 2 f_equal. f_equal. unfold vasicek, vasicek_estimate, mean, len. rewrite map_length, seq_length.
    rewrite rsort_length. f_equal. f_equal. apply map_ext. intros k. change (window_range (rsort l) (length l / 4) k) with
      (nth (Nat.min (length (rsort l) - 1) (k + length l / 4)) (rsort l) 0 - nth (k - length l / 4) (rsort l) 0). unfold spaced.
    rewrite (Nat.min_comm (length (rsort l) - 1)). destruct (Rltb_spec 0 (nth (Nat.min (k + length l / 4) (length (rsort l) - 1)) (rsort l) 0 - nth (k - length l / 4) (rsort l) 0)) as [Y|Y];
      destruct (Rlt_dec _ _) as [Z|Z]; try lra; trivial. f_equal. unfold Rdiv. ring.
Qed.
(** mode: the sample mode is the best of 200 grid points under a Gaussian kernel estimate with Scott's bandwidth, and it is compared
    with the mode of the law *)
Lemma kde_scott l : (2 <= length l)%nat -> 0 < ssq l -> exists k, 0 < k /\ forall x, scott_density l x = k * kde l x.
Proof.
  intros L S. assert (N : 1 < INR (length l)) by (change 1 with (INR 1); apply lt_INR; lia).
  assert (V : 0 < variance1 l) by (change (variance1 l) with (ssq l / (INR (length l) - 1)); apply Rdiv_lt_0_compat; lra).
  set (h := scott_bandwidth l). assert (Hh : 0 < h) by (apply Rmult_lt_0_compat; [now apply sqrt_lt_R0|apply exp_pos]).
  assert (H2 : h ^ 2 = ssq l / (len l - 1) * Rpower (len l) (- (1 / 5)) ^ 2).
  { unfold h, scott_bandwidth. rewrite Rpow_mult_distr, pow2_sqrt by lra. reflexivity. }
  assert (Q : 0 < sqrt (2 * PI)) by (apply sqrt_lt_R0; pose proof PI_RGT_0; lra).
  exists (/ (len l * sqrt (2 * PI) * h)). split; [apply Rinv_0_lt_compat, Rmult_lt_0_compat; trivial; apply Rmult_lt_0_compat; unfold len; lra|].
  intros x. unfold scott_density, kde. fold h. cbv zeta. rewrite <- H2. unfold mean. replace (len (map (fun xi => norm_pdf ((x - xi) / h) / h) l)) with (len l) by (unfold len; now rewrite map_length).
  rewrite (map_ext (fun xi => norm_pdf ((x - xi) / h) / h) (fun xi => / (sqrt (2 * PI) * h) * exp (- (x - xi) ^ 2 / (2 * h ^ 2)))).
  - rewrite Rsum_map_scal. field. unfold len. repeat split; lra.
  - intros xi. unfold norm_pdf, gauss. replace (- (((x - xi) / h) ^ 2 / 2)) with (- (x - xi) ^ 2 / (2 * h ^ 2)) by (field; lra). field. lra.
Qed.
Lemma C113_mode_holds : forall B psi betaln A f l v, 1 < ba_alpha A -> 1 < ba_beta A ->
  In ("ModeBetaGofStatistic", f) (beta_statistics B psi betaln A) -> nvalue (f l) = Ok (Some (Fin v)) ->
  exists m m0, grid_point m /\ (forall x, grid_point x -> scott_density l x <= scott_density l m) /\
    (forall x, 0 < x < 1 -> x <> m0 -> beta_weight (ba_alpha A) (ba_beta A) x < beta_weight (ba_alpha A) (ba_beta A) m0) /\ 0 < m0 < 1 /\
    v = sqrt (len l) * Rabs (m - m0).
Proof.
  intros B psi betaln A f l v Ha Hb H Hv. each H; try discriminate H. injection H as <-. cbn [nreads nvalue] in Hv. valid Hv l U.
  unfold mode_beta in Hv. destruct (length l <? 2)%nat eqn:L; [discriminate|]. apply Nat.ltb_ge in L. destruct (varying l) eqn:Va; [|discriminate].
  cbn [negb orb] in Hv. apply num_inj in Hv as [_ ->]. exists (sample_mode l), ((ba_alpha A - 1) / (ba_alpha A + ba_beta A - 2)).
  assert (G : forall x, grid_point x <-> In x mode_grid).
  { intros x. rewrite mode_grid_in. split; intros (i & Hi & E); exists i; (split; [exact Hi|]); rewrite E; unfold Rdiv; ring. }
  destruct (kde_scott l L (varying_true l Va)) as (k & Pk & K).
  split; [apply G; exact (argmax_in (kde l) mode_grid mode_grid_ne)|]. split; [|split; [|split; [|reflexivity]]].
  - intros x Hx. rewrite !K. apply Rmult_le_compat_l; [lra|]. apply (argmax_ge (kde l) mode_grid x). now apply G.
  - intros x Hx Nx. now apply mode_max.
  - split; [apply Rdiv_lt_0_compat; lra|]. apply (Rmult_lt_reg_r (ba_alpha A + ba_beta A - 2)); [lra|]. unfold Rdiv. rewrite Rmult_assoc, Rinv_l by lra. lra.
Qed.
(** non-vacuity: an increasing function with the recursion of digamma exists, and the classes return numbers *)
Lemma C113_nonvacuous_digamma_holds : exists psi, digamma_like psi.
Proof.
  set (h := fun b => RInt_gen (fun x => ln x * beta_weight 1 b x) (at_right 0) (at_left 1) / RInt_gen (beta_weight 1 b) (at_right 0) (at_left 1)).
  assert (H : forall b, 0 < b -> is_log 1 b (h b)).
  { intros b Hb. destruct (is_log_ex 1 b Rlt_0_1 Hb) as (k & c & [Pc Hc] & K). exists c. split; [now split|]. unfold h.
    rewrite (is_RInt_gen_unique (V := R_CompleteNormedModule) (beta_weight 1 b) c Hc). rewrite (is_RInt_gen_unique (V := R_CompleteNormedModule) _ (k * c) K).
    replace (k * c / c * c) with (k * c) by (field; lra). exact K. }
  assert (Up : forall b, 0 < b -> h (b + 1) = h b - / (1 + b)) by (intros b Hb; apply (is_log_unique 1 (b + 1)); [apply H; lra|apply is_log_up; [lra|lra|now apply H]]).
  assert (Mo : forall b c, 0 < b -> b <= c -> h c <= h b).
  { intros b c Hb L. apply (is_log_mono 1 b (c - b)); [lra|lra|lra|now apply H|]. replace (b + (c - b)) with c by ring. apply H. lra. }
  assert (Ne : forall b, 0 < b -> h b <= 0) by (intros b Hb; apply (is_log_neg 1 b); now apply H).
  assert (One : h 1 = -1).
  { apply (is_log_unique 1 1); [apply H; lra|]. exists (/ 1). split; [split; [lra|now apply weight_one, Rlt_0_1]|]. replace (-1 * / 1) with (- / 1 ^ 2) by field. apply log_one. lra. }
  exists (fun x => if Rle_dec x 1 then - h x - / x else - h (x - 1)). split.
  - intros x Hx. destruct (Rle_dec (x + 1) 1); [lra|]. replace (x + 1 - 1) with x by ring. destruct (Rle_dec x 1); [ring|].
    replace x with (x - 1 + 1) at 1 by ring. rewrite Up by lra. replace (1 + (x - 1)) with x by ring. ring.
  - intros x y Hx L. destruct (Rle_dec x 1) as [X|X], (Rle_dec y 1) as [Y|Y].
    + pose proof (Mo x y Hx L). assert (/ y <= / x) by (apply Rinv_le_contravar; lra). lra.
    + pose proof (Mo x 1 Hx X). pose proof (Ne (y - 1) ltac:(lra)). assert (/ 1 <= / x) by (apply Rinv_le_contravar; lra). lra.
    + lra.
    + pose proof (Mo (x - 1) (y - 1) ltac:(lra) ltac:(lra)). lra.
Qed.
Lemma C113_nonvacuous_values_holds : forall B psi betaln name f, let A := BetaArgs 2 3 TWO_TAILED 1 in let l := [1 / 5; 2 / 5; 3 / 5; 4 / 5] in
  In name ["MomentBasedBetaGofStatistic"; "SkewnessKurtosisBetaGofStatistic"; "RatioBetaGofStatistic"; "EntropyBetaGofStatistic"; "ModeBetaGofStatistic"] ->
  In (name, f) (beta_statistics B psi betaln A) -> exists v, nvalue (f l) = Ok (Some (Fin v)).
Proof.
  intros B psi betaln name f A l I H.
  assert (U : in_unit l) by (intros x [<-|[<-|[<-|[<-|[]]]]]; lra).
  assert (V : varying l = true) by (apply varying_pos; unfold ssq, mean, len, Rsum; simpl; lra).
  each H; injection H as <- <-; cbn [In] in I; repeat destruct I as [I|I]; try discriminate I; try contradiction; cbn [nreads nvalue]; rewrite validated_ok by trivial.
  - unfold mb_beta, num. cbn [length l Nat.ltb Nat.leb]. eexists. reflexivity.
  - unfold sk_beta, num. rewrite V. eexists. reflexivity.
  - unfold rt_beta. cbn [l]. fold l. destruct (Reqb_spec (mean l) 0) as [E|]; [exfalso; revert E; unfold mean, len, Rsum, l; simpl; lra|]. unfold num. eexists. reflexivity.
  - unfold ent_beta. cbn [l]. unfold num. eexists. reflexivity.
  - unfold mode_beta. rewrite V. cbn [length l Nat.ltb Nat.leb negb orb]. unfold num. eexists. reflexivity.
Qed.
