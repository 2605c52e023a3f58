(** MLEst, REJG and SPP (weibull.py:749-778, 834-846). *)
From Coq Require Import String.
From Verif Require Import Base DecModel EdfModel EdfSpec GraphModel RegistryModel ExpModel NormModel WeibullModel WeibullSpec Analysis EdfProofs EdfRotProofs EdfPowerProofs NormProofs NormRangeProofs NormFiniteProofs NormAffProofs NormSymProofs NormReflProofs ExpProofs GammaProofs WeibullProofs WeibullInvProofs.
From Verif Require SamplerSpec.
From Coq Require Import Lra Lia Psatz.
From Coquelicot Require Import Coquelicot.
Local Open Scope R_scope.

Definition neglog (l : list R) : list R := map (fun x => - ln x) l.
Definition W (t : R) (l : list R) : R := Rsum (map (fun x => Rpower x t) l).
Definition WL (t : R) (l : list R) : R := Rsum (map (fun x => Rpower x t * ln x) l).
Lemma W_pos t l : l <> [] -> 0 < W t l.
Proof.
  intros H. destruct l as [|x l]; [easy|]. unfold W. cbn [map Rsum]. pose proof (Rpower_pos x t).
  assert (0 <= Rsum (map (fun x => Rpower x t) l)); [|lra]. apply Rsum_nonneg. intros v Hv. apply in_map_iff in Hv as (u & <- & _). apply Rlt_le, Rpower_pos.
Qed.
Lemma exp_neglog t x : exp (- - ln x * t) = Rpower x t.
Proof. unfold Rpower. f_equal. ring. Qed.
Lemma neglog_sum l : Rsum (rsort (neglog l)) = - Rsum (map ln l).
Proof. rewrite (Rsum_perm _ _ (rsort_perm (neglog l))). unfold neglog. rewrite <- (Rsum_map_opp ln). reflexivity. Qed.
Lemma neglog_len l : len (rsort (neglog l)) = len l.
Proof. unfold len, neglog. now rewrite rsort_length, map_length. Qed.
Lemma neglog_exp t l : Rsum (map (fun v => exp (- v * t)) (rsort (neglog l))) = W t l.
Proof.
  rewrite (Rsum_perm _ _ (Permutation_map _ (rsort_perm (neglog l)))). unfold neglog, W. rewrite map_map. apply Rsum_map_ext. intros x _. apply exp_neglog.
Qed.
Lemma neglog_wexp t l : Rsum (map (fun v => v * exp (- v * t)) (rsort (neglog l))) = - WL t l.
Proof.
  rewrite (Rsum_perm _ _ (Permutation_map _ (rsort_perm (neglog l)))). unfold neglog, WL. rewrite map_map, <- Rsum_map_opp. apply Rsum_map_ext. intros x _. rewrite exp_neglog. ring.
Qed.
(** the weighted mean of the logarithms is not smaller than their mean *)
Lemma weighted_mean_ge t l : 0 < t -> l <> [] -> Rsum (map ln l) / len l <= WL t l / W t l.
Proof.
  intros Ht Hne. pose proof (W_pos t l Hne) as HW. pose proof (len_pos l Hne) as Hl.
  set (s := rsort (map ln l)). set (e := map (fun v => exp (t * v)) s).
  assert (Hs : sortedR s) by apply rsort_sorted. assert (He : sortedR e).
  { unfold e. apply sorted_map_mono; trivial. intros x y H. destruct (Req_dec x y) as [-> |N]; [lra|]. apply Rlt_le, exp_increasing. nra. }
  pose proof (chebyshev s e Hs He ltac:(unfold e; now rewrite map_length)) as C.
  assert (E1 : Rsum s = Rsum (map ln l)) by (apply Rsum_perm, rsort_perm).
  assert (E2 : Rsum e = W t l).
  { unfold e, s. rewrite (Rsum_perm _ _ (Permutation_map _ (rsort_perm (map ln l)))), map_map. reflexivity. }
  assert (E3 : dot s e = WL t l).
  { unfold dot, e. assert (K : forall z, Rsum (map (fun p => fst p * snd p) (combine z (map (fun v => exp (t * v)) z))) = Rsum (map (fun v => v * exp (t * v)) z)).
    { induction z as [|a z IH]; cbn [map combine Rsum fst snd]; trivial. now rewrite IH. }
    rewrite K. unfold s. rewrite (Rsum_perm _ _ (Permutation_map _ (rsort_perm (map ln l)))), map_map. unfold WL. apply Rsum_map_ext. intros x _. unfold Rpower. ring. }
  rewrite E1, E2, E3 in C. unfold s in C. rewrite rsort_length, map_length in C. fold (len l) in C.
  apply (Rmult_le_reg_r (len l * W t l)); [now apply Rmult_lt_0_compat|].
  replace (Rsum (map ln l) / len l * (len l * W t l)) with (Rsum (map ln l) * W t l) by (field; lra).
  replace (WL t l / W t l * (len l * W t l)) with (len l * WL t l) by (field; lra). exact C.
Qed.
Lemma mlest_objective l t : 0 < t -> l <> [] -> mlest_f1 (rsort (neglog l)) t = 2 / t - shape_score l t /\ 1 / t <= mlest_f1 (rsort (neglog l)) t.
Proof.
  intros Ht Hne. unfold mlest_f1. rewrite (proj2 (Reqb_false t 0)) by lra. rewrite neglog_sum, neglog_len, neglog_exp, neglog_wexp.
  pose proof (weighted_mean_ge t l Ht Hne) as G. pose proof (W_pos t l Hne) as HW. pose proof (len_pos l Hne) as Hl.
  assert (I : 0 < 1 / t) by (apply Rdiv_lt_0_compat; lra).
  replace (- Rsum (map ln l) / len l - (- WL t l / W t l - 1 / t)) with (1 / t + (WL t l / W t l - Rsum (map ln l) / len l)) by (field; lra).
  rewrite Rabs_pos_eq by lra. split; [|lra]. unfold shape_score. fold (W t l) (WL t l) (len l). field. lra.
Qed.
Lemma mlest_value minimise l : l <> [] -> all_positive l -> let t := minimise (mlest_f1 (rsort (neglog l))) 0.0001 50 in
  let ksi := - (1 / t) * ln (W t l / len l) in
  mlest minimise l = Ok (Estimates (exp (- ksi)) t (map (fun v => - (v - ksi) * t) (rsort (neglog l)))).
Proof.
  intros Hne P t ksi. unfold mlest. rewrite match_ne by trivial. destruct (Rleb_spec (Rminl 0 l) 0) as [H|H].
  - exfalso. pose proof (P _ (Rminl_in 0 l Hne)). lra.
  - cbv zeta. fold (neglog l). fold t. rewrite neglog_exp. reflexivity.
Qed.
(** the scale is the best one for the shape *)
Lemma mlest_scale l t : 0 < t -> l <> [] -> all_positive l -> forall eta, 0 < eta ->
  weibull_loglik eta t l <= weibull_loglik (exp (- (- (1 / t) * ln (W t l / len l)))) t l.
Proof.
  intros Ht Hne P eta He. pose proof (W_pos t l Hne) as HW. pose proof (len_pos l Hne) as Hl. set (eta0 := exp _). assert (H0 : 0 < eta0) by apply exp_pos.
  assert (K : forall e, 0 < e -> weibull_loglik e t l = len l * (ln t - t * ln e) + (t - 1) * Rsum (map ln l) - W t l / Rpower e t).
  { intros e Hpe. unfold weibull_loglik, W, len. clear Hne HW Hl H0 eta0. induction l as [|x l IH]; [cbn; unfold Rdiv; ring|].
    cbn [map Rsum length]. rewrite S_INR, IH by (intros y Hy; apply P; now right).
    assert (E : Rpower (x / e) t = Rpower x t / Rpower e t).
    { unfold Rpower. rewrite ln_quot by (trivial; apply P; now left). rewrite Rmult_minus_distr_l. unfold Rminus. rewrite exp_plus, exp_Ropp. reflexivity. }
    rewrite E. unfold Rdiv. ring. }
  rewrite !K by trivial. assert (Q : 0 < W t l / len l) by now apply Rdiv_lt_0_compat.
  assert (E0 : Rpower eta0 t = W t l / len l).
  { unfold Rpower, eta0. rewrite ln_exp. rewrite <- (exp_ln _ Q) at 2. f_equal. field. lra. }
  assert (L0 : t * ln eta0 = ln (W t l / len l)) by (unfold eta0; rewrite ln_exp; field; lra).
  set (E := Rpower eta t). assert (HE : 0 < E) by apply Rpower_pos. assert (LE : t * ln eta = ln E) by (unfold E, Rpower; now rewrite ln_exp).
  pose proof (ln_le_sub1 (W t l / len l / E) ltac:(now apply Rdiv_lt_0_compat)) as I. rewrite ln_quot in I by trivial. rewrite LE, L0, E0.
  replace (W t l / (W t l / len l)) with (len l) by (field; lra). replace (W t l / E) with (len l * (W t l / len l / E)) by (field; lra). nra.
Qed.
(** *** two observations: the objective decreases *)
Definition two_obj (a b t : R) : R := 1 / t + ((a * exp (t * a) + b * exp (t * b)) / (exp (t * a) + exp (t * b)) - (a + b) / 2).
Lemma cosh_bound z : z ^ 2 < exp z + 2 + exp (- z).
Proof.
  assert (K : forall z, 0 <= z -> z ^ 2 < exp z + 2 + exp (- z)).
  { intros y H. pose proof (exp_ineq1_le (y / 2)) as G. set (r := exp (y / 2)) in *. assert (Hr : 1 <= r) by lra.
    pose proof (ln_trapezoid r Hr) as T. unfold r in T at 1. rewrite ln_exp in T.
    assert (E1 : exp y = r * r) by (unfold r; rewrite <- exp_plus; f_equal; lra). assert (E2 : exp (- y) = / r * / r).
    { rewrite exp_Ropp, E1. field. lra. }
    rewrite E1, E2. assert (0 < / r) by (apply Rinv_0_lt_compat; lra). assert (y <= r - / r) by lra. assert (r * / r = 1) by (field; lra). nra. }
  destruct (Rle_lt_dec 0 z) as [H|H]; [now apply K|]. pose proof (K (- z) ltac:(lra)) as G. rewrite Ropp_involutive in G.
  replace ((- z) ^ 2) with (z ^ 2) in G by ring. lra.
Qed.
Lemma two_obj_decreasing a b t u : 0 < t -> t < u -> two_obj a b u < two_obj a b t.
Proof.
  intros Ht Hu. assert (X : - two_obj a b t < - two_obj a b u); [|lra].
  apply (derive_pos_lt (fun t => - two_obj a b t) (fun t => (1 / t ^ 2 - (b - a) ^ 2 * (exp (t * a) * exp (t * b)) / (exp (t * a) + exp (t * b)) ^ 2))); trivial.
  - intros c Hc. unfold two_obj. pose proof (exp_pos (c * a)). pose proof (exp_pos (c * b)). auto_derive; [repeat split; lra|]. field. split; lra.
  - intros c Hc. pose proof (exp_pos (c * a)) as HA. pose proof (exp_pos (c * b)) as HB. set (A := exp (c * a)) in *. set (B := exp (c * b)) in *.
    pose proof (cosh_bound (c * b - c * a)) as K. rewrite Ropp_minus_distr in K. unfold Rminus in K. rewrite !exp_plus, !exp_Ropp in K. fold A B in K.
    assert (P : 0 < (A + B) ^ 2) by (apply pow_lt; lra). assert (Pc : 0 < c ^ 2) by (apply pow_lt; lra).
    assert (K2 : (c * (b - a)) ^ 2 * (A * B) < (A + B) ^ 2).
    { replace ((A + B) ^ 2) with ((B * / A + 2 + A * / B) * (A * B)) by (field; lra). apply Rmult_lt_compat_r; [now apply Rmult_lt_0_compat|].
      replace ((c * (b - a)) ^ 2) with ((c * b + - (c * a)) ^ 2) by ring. exact K. }
    assert (E : 1 / c ^ 2 - (b - a) ^ 2 * (A * B) / (A + B) ^ 2 = ((A + B) ^ 2 - (c * (b - a)) ^ 2 * (A * B)) / (c ^ 2 * (A + B) ^ 2)) by (field; split; lra).
    rewrite E. apply Rdiv_lt_0_compat; [lra|]. now apply Rmult_lt_0_compat.
Qed.
Lemma two_obj_f1 x y t : 0 < t -> mlest_f1 (rsort (neglog [x; y])) t = two_obj (ln x) (ln y) t.
Proof.
  intros Ht. destruct (mlest_objective [x; y] t Ht ltac:(discriminate)) as [E _]. rewrite E. unfold shape_score, two_obj. cbn [map Rsum length INR].
  fold (Rpower x t) (Rpower y t). pose proof (Rpower_pos x t). pose proof (Rpower_pos y t). field. split; lra.
Qed.
Lemma two_shape minimise x y : 0 < x -> 0 < y ->
  (let m := minimise (mlest_f1 (rsort (neglog [x; y]))) 0.0001 50 in 0.0001 <= m <= 50 /\ forall t, 0.0001 <= t <= 50 ->
     mlest_f1 (rsort (neglog [x; y])) m <= mlest_f1 (rsort (neglog [x; y])) t) ->
  minimise (mlest_f1 (rsort (neglog [x; y]))) 0.0001 50 = 50.
Proof.
  intros Hx Hy. cbv zeta. set (f := mlest_f1 (rsort (neglog [x; y]))). set (m := minimise f 0.0001 50). intros [B M].
  destruct (Req_dec m 50) as [|N]; trivial. exfalso. specialize (M 50 ltac:(lra)). unfold f in M. rewrite !two_obj_f1 in M by lra.
  pose proof (two_obj_decreasing (ln x) (ln y) m 50 ltac:(lra) ltac:(lra)). lra.
Qed.
Lemma rejg_scores_scale n beta : beta <> 0 -> rejg_scores n beta = aff 0 (/ beta) (rejg_scores n 1).
Proof. intros H. unfold rejg_scores, aff. rewrite map_map. apply map_ext. intros i. field. exact H. Qed.
Lemma rejg_scores_length n beta : length (rejg_scores n beta) = n.
Proof. unfold rejg_scores. now rewrite map_length, seq_length. Qed.
Definition rejg_free (l : list R) : outcome :=
  let y := rsort (map ln l) in let m := rejg_scores (length l) 1 in num (varying y && varying m) ((dot (dev y) m ^ 2 / (ssq y * ssq m)) ^ 2).
Lemma rejg_value minimise l : in_bounds minimise -> l <> [] -> all_positive l -> rejg_weibull minimise l = rejg_free l.
Proof.
  intros HB Hne P. unfold rejg_weibull. rewrite mlest_value by trivial. set (t := minimise _ _ _). assert (Ht : 0.0001 <= t <= 50) by (apply HB; lra).
  cbn [bind es_beta]. unfold rejg_free. cbv zeta. fold (dev (rsort (map ln l))). rewrite rejg_scores_scale by lra. rewrite varying_aff by (apply Rinv_neq_0_compat; lra).
  apply num_ext; trivial. intros _. f_equal. rewrite dot_aff by (rewrite dev_length, rsort_length, map_length; symmetry; apply rejg_scores_length).
  rewrite ssq_aff. replace (0 * Rsum (dev (rsort (map ln l))) + / t * dot (dev (rsort (map ln l))) (rejg_scores (length l) 1)) with (/ t * dot (dev (rsort (map ln l))) (rejg_scores (length l) 1)) by ring.
  rewrite Rpow_mult_distr. replace (ssq (rsort (map ln l)) * ((/ t) ^ 2 * ssq (rejg_scores (length l) 1))) with ((/ t) ^ 2 * (ssq (rsort (map ln l)) * ssq (rejg_scores (length l) 1))) by ring.
  apply div_scale. apply pow_nonzero, Rinv_neq_0_compat. lra.
Qed.
Lemma rejg_free_powered c b l : 0 < c -> 0 < b -> rejg_free (powered c b l) = rejg_free l.
Proof.
  intros Hc Hb. unfold rejg_free. cbv zeta. rewrite logs_powered, powered_length, varying_aff, ssq_aff by (trivial; lra). apply num_ext; trivial. intros _. f_equal.
  rewrite dev_aff by trivial. rewrite dot_scal_l, Rpow_mult_distr, Rmult_assoc. apply div_scale. apply pow_nonzero. lra.
Qed.
Lemma rejg_free_range l v : rejg_free l = Ok (Some (Fin v)) -> 0 <= v <= 1.
Proof.
  unfold rejg_free. cbv zeta. set (y := rsort (map ln l)). set (m := rejg_scores (length l) 1). intros E. unfold num in E.
  destruct (varying y && varying m) eqn:V; [|discriminate]. apply andb_true_iff in V as [V1 V2]. apply varying_true in V1, V2.
  assert (I : v = (dot (dev y) m ^ 2 / (ssq y * ssq m)) ^ 2) by congruence. subst v. clear E.
  assert (L : length (dev y) = length m). { unfold m. rewrite dev_length, rejg_scores_length. unfold y. now rewrite rsort_length, map_length. }
  assert (N : y <> []) by (intros ->; unfold ssq in V1; cbn in V1; lra).
  pose proof (dot_ssq (dev y) m L (dev_sum y N)) as C. rewrite dev_sumsqs in C.
  pose proof (ratio_01 (dot (dev y) m ^ 2) (ssq y * ssq m) ltac:(now apply Rmult_lt_0_compat) ltac:(split; [apply pow2_ge_0|exact C])) as [A B].
  set (q := dot (dev y) m ^ 2 / (ssq y * ssq m)) in *. split; [apply pow2_ge_0|nra].
Qed.
(** *** SPP *)
Lemma asin_strict a b : 0 <= a -> a < b -> b <= 1 -> asin (sqrt a) < asin (sqrt b).
Proof.
  intros Ha Hab Hb. assert (S : sqrt a < sqrt b) by (apply sqrt_lt_1; lra). assert (B : sqrt b <= 1) by (rewrite <- sqrt_1; apply sqrt_le_1_alt; lra).
  pose proof (sqrt_pos a) as A0. destruct (Rlt_le_dec (asin (sqrt a)) (asin (sqrt b))) as [|H]; trivial. exfalso.
  pose proof (asin_bound (sqrt a)). pose proof (asin_bound (sqrt b)).
  assert (sin (asin (sqrt b)) <= sin (asin (sqrt a))) by (apply sin_incr_1; lra). rewrite !sin_asin in * by lra. lra.
Qed.
Lemma arcsine_strict a b : 0 <= a -> a < b -> b <= 1 -> arcsine a < arcsine b.
Proof. intros. unfold arcsine. pose proof PI_RGT_0. apply Rmult_lt_compat_l; [apply Rdiv_lt_0_compat; lra|now apply asin_strict]. Qed.
Lemma arcsine_mono a b : 0 <= a -> a <= b -> b <= 1 -> arcsine a <= arcsine b.
Proof. intros Ha [H| ->] Hb; [|lra]. apply Rlt_le. now apply arcsine_strict. Qed.
(** pairing an ascending with a descending list: only the extremes matter *)
Lemma max_opposed n (r s : nat -> R) : (0 < n)%nat -> (forall i j, (i <= j < n)%nat -> r i <= r j) -> (forall i j, (i <= j < n)%nat -> s i <= s j) ->
  Rmaxl 0 (map (fun i => Rabs (r i - s (n - 1 - i)%nat)) (seq 0 n)) = Rmax (r (n - 1)%nat - s 0%nat) (s (n - 1)%nat - r 0%nat).
Proof.
  intros Hn Hr Hs. assert (NE : map (fun i => Rabs (r i - s (n - 1 - i)%nat)) (seq 0 n) <> []) by (destruct n; [lia|discriminate]). apply Rle_antisym.
  - apply Rmaxl_le_iff; trivial. intros x Hx. apply in_map_iff in Hx as (i & <- & Hi). apply in_seq in Hi.
    pose proof (Hr i (n - 1)%nat ltac:(lia)). pose proof (Hr 0%nat i ltac:(lia)). pose proof (Hs 0%nat (n - 1 - i)%nat ltac:(lia)). pose proof (Hs (n - 1 - i)%nat (n - 1)%nat ltac:(lia)).
    pose proof (Rmax_l (r (n - 1)%nat - s 0%nat) (s (n - 1)%nat - r 0%nat)). pose proof (Rmax_r (r (n - 1)%nat - s 0%nat) (s (n - 1)%nat - r 0%nat)).
    apply Rabs_le. lra.
  - apply Rmax_lub.
    + eapply Rle_trans; [apply Rle_abs|]. apply Rmaxl_ge. apply in_map_iff. exists (n - 1)%nat. split; [|apply in_seq; lia]. do 3 f_equal. lia.
    + eapply Rle_trans; [|apply Rmaxl_ge, in_map_iff; exists 0%nat; split; [reflexivity|apply in_seq; lia]].
      replace (n - 1 - 0)%nat with (n - 1)%nat by lia. rewrite Rabs_minus_sym. apply Rle_abs.
Qed.
(** the distribution function of the fitted law *)
Definition fitted (t ksi x : R) : R := 1 - exp (- exp (t * (ln x + ksi))).
Lemma fitted_law t ksi x : 0 < x -> fitted t ksi x = SamplerSpec.weibull_law (exp (- ksi)) t x.
Proof.
  intros H. unfold fitted, SamplerSpec.weibull_law. destruct (Rleb_spec x 0); [lra|]. unfold Rpower. rewrite ln_quot, ln_exp by (trivial; apply exp_pos). f_equal. f_equal. f_equal. f_equal. ring.
Qed.
Lemma fitted_range t ksi x : 0 <= fitted t ksi x <= 1.
Proof.
  unfold fitted. pose proof (exp_pos (- exp (t * (ln x + ksi)))). pose proof (exp_pos (t * (ln x + ksi))).
  assert (exp (- exp (t * (ln x + ksi))) < exp 0) by (apply exp_increasing; lra). rewrite exp_0 in *. lra.
Qed.
Lemma fitted_strict t ksi x y : 0 < t -> 0 < x -> x < y -> fitted t ksi x < fitted t ksi y.
Proof.
  intros Ht Hx H. unfold fitted. assert (exp (- exp (t * (ln y + ksi))) < exp (- exp (t * (ln x + ksi)))); [|lra].
  apply exp_increasing, Ropp_lt_contravar, exp_increasing. pose proof (ln_increasing x y Hx H). nra.
Qed.
Lemma rev_nth_map (f : R -> R) (l : list R) i : (i < length l)%nat -> nth i (map f (rev l)) 0 = f (nth (length l - 1 - i) l 0).
Proof.
  intros H. rewrite (nth_indep _ 0 (f 0)) by (rewrite map_length, rev_length; lia). rewrite map_nth, rev_nth by trivial. do 2 f_equal. lia.
Qed.
Lemma neglog_rev l : all_positive l -> rsort (neglog l) = map (fun x => - ln x) (rev (rsort l)).
Proof.
  intros P. replace (neglog l) with (neg (map ln l)) by (unfold neg, neglog; now rewrite map_map). rewrite rsort_neg, ln_sorted by trivial. unfold neg. now rewrite map_map, map_rev.
Qed.
Lemma combine_seq (f g : list R) n : length f = n -> length g = n -> map (fun p => Rabs (fst p - snd p)) (combine f g) = map (fun i => Rabs (nth i f 0 - nth i g 0)) (seq 0 n).
Proof.
  revert g n. induction f as [|a f IH]; intros [|b g] n L1 L2; cbn in L1, L2; subst n; try discriminate; trivial.
  cbn [combine map seq fst snd nth]. f_equal. injection L2 as L2. rewrite (IH g (length f)) by trivial. rewrite <- seq_shift, map_map. reflexivity.
Qed.
Lemma spp_value minimise l : in_bounds minimise -> l <> [] -> all_positive l -> exists eta beta, 0 < eta /\ 0 < beta /\
  (exists y, mlest minimise l = Ok (Estimates eta beta y)) /\
  let F := SamplerSpec.weibull_law eta beta in let s := rsort l in let n := len l in
  spp_weibull minimise l = Ok (Some (Fin (Rmax (arcsine (1 - 1 / (2 * n)) - arcsine (F (nth 0 s 0))) (arcsine (F (nth (length l - 1) s 0)) - arcsine (1 / (2 * n)))))).
Proof.
  intros HB Hne P. pose proof (mlest_value minimise l Hne P) as M. cbv zeta in M. set (t := minimise _ _ _) in *. assert (Ht : 0.0001 <= t <= 50) by (apply HB; lra).
  set (ksi := - (1 / t) * ln (W t l / len l)) in *. exists (exp (- ksi)), t. split; [apply exp_pos|]. split; [lra|]. split; [eexists; exact M|]. cbv zeta.
  unfold spp_weibull. rewrite M. cbn [bind es_y]. set (n := length l). assert (Hn : (0 < n)%nat) by (unfold n; destruct l; [easy|simpl; lia]).
  rewrite neglog_rev, map_map by trivial. unfold spp_s. rewrite map_map. set (G := fun x => 2 / PI * asin (sqrt (1 - exp (- exp (- (- ln x - ksi) * t))))).
  assert (EG : forall x, G x = arcsine (fitted t ksi x)) by (intros x; unfold G, arcsine, fitted; replace (- (- ln x - ksi) * t) with (t * (ln x + ksi)) by ring; reflexivity).
  assert (LR : length (spp_r n) = n) by (unfold spp_r; now rewrite map_length, seq_length).
  assert (LS : length (map G (rev (rsort l))) = n) by (now rewrite map_length, rev_length, rsort_length).
  rewrite (combine_seq _ _ n LR LS).
  assert (PN : 0 < INR n) by now apply lt_0_INR.
  assert (ER : map (fun i => Rabs (nth i (spp_r n) 0 - nth i (map G (rev (rsort l))) 0)) (seq 0 n) =
    map (fun i => Rabs (arcsine ((INR i + 1 / 2) / INR n) - arcsine (fitted t ksi (nth (n - 1 - i) (rsort l) 0)))) (seq 0 n)).
  { apply map_ext_in. intros i Hi. apply in_seq in Hi. do 2 f_equal.
    - unfold spp_r. rewrite (nth_indep _ 0 (2 / PI * asin (sqrt ((INR (S 0) - 0.5) / INR n)))) by (rewrite map_length, seq_length; lia).
      rewrite (map_nth (fun i => 2 / PI * asin (sqrt ((INR (S i) - 0.5) / INR n)))). rewrite seq_nth by lia. unfold arcsine. do 4 f_equal. rewrite Nat.add_0_l, S_INR. lra.
    - rewrite rev_nth_map by (rewrite rsort_length; fold n; lia). rewrite EG. rewrite rsort_length. reflexivity. }
  rewrite ER. assert (X : forall z : list R, z <> [] -> np_max z = Ok (Rmaxl 0 z)) by (intros [|a z] Hz; [easy|reflexivity]). rewrite X by (destruct n; [lia|discriminate]). cbn [lift bind]. do 3 f_equal.
  assert (HI : forall i, (i < n)%nat -> 0 < nth i (rsort l) 0). { intros i Hi. apply P, rsort_in, nth_In. rewrite rsort_length. exact Hi. }
  rewrite (max_opposed n (fun i => arcsine ((INR i + 1 / 2) / INR n)) (fun i => arcsine (fitted t ksi (nth i (rsort l) 0)))); trivial.
  - fold (len l). f_equal; f_equal; try (rewrite fitted_law; [reflexivity|apply HI; lia]); unfold len; fold n; f_equal.
    + rewrite minus_INR by lia. cbn [INR]. field. lra.
    + cbn [INR]. field. lra.
  - intros i j Hij. assert (INR i <= INR j) by (apply le_INR; lia). assert (INR j + 1 <= INR n) by (rewrite <- S_INR; apply le_INR; lia). pose proof (pos_INR i).
    apply arcsine_mono.
    + apply Rmult_le_pos; [lra|]. apply Rlt_le. now apply Rinv_0_lt_compat.
    + apply Rmult_le_compat_r; [|lra]. apply Rlt_le. now apply Rinv_0_lt_compat.
    + apply (Rmult_le_reg_r (INR n)); trivial. unfold Rdiv. rewrite Rmult_assoc, Rinv_l; lra.
  - intros i j Hij. apply arcsine_mono; try apply fitted_range. assert (L : nth i (rsort l) 0 <= nth j (rsort l) 0) by (apply sorted_nth_le; [apply rsort_sorted|rewrite rsort_length; fold n; lia]).
    destruct L as [L|L]; [|rewrite L; lra]. apply Rlt_le, fitted_strict; trivial; [lra|apply HI; lia].
Qed.
(** the paired distance is smaller *)
Lemma spp_larger F l d : all_positive l -> (forall x, 0 < x -> 0 <= F x <= 1) -> (forall x y, 0 < x -> x < y -> F x < F y) ->
  (exists x y, In x l /\ In y l /\ x <> y) -> stabilised_distance F l d ->
  d < Rmax (arcsine (1 - 1 / (2 * len l)) - arcsine (F (nth 0 (rsort l) 0))) (arcsine (F (nth (length l - 1) (rsort l) 0)) - arcsine (1 / (2 * len l))).
Proof.
  intros P FR FS (x & y & Hx & Hy & Hxy) [(i & Hi & E) _]. set (n := length l) in *. cbv zeta in *.
  assert (PN : 0 < INR n) by (apply lt_0_INR; lia). assert (EN : len l = INR n) by reflexivity. rewrite EN.
  assert (HI : forall i, (i < n)%nat -> 0 < nth i (rsort l) 0). { intros k Hk. apply P, rsort_in, nth_In. rewrite rsort_length. exact Hk. }
  assert (Mono : forall i j, (i <= j < n)%nat -> nth i (rsort l) 0 <= nth j (rsort l) 0) by (intros a b Hab; apply sorted_nth_le; [apply rsort_sorted|rewrite rsort_length; exact Hab]).
  assert (SM : forall i j, (i <= j < n)%nat -> arcsine (F (nth i (rsort l) 0)) <= arcsine (F (nth j (rsort l) 0))).
  { intros a b Hab. pose proof (HI a ltac:(lia)). pose proof (HI b ltac:(lia)). apply arcsine_mono; [apply FR; trivial| |apply FR; trivial].
    destruct (Mono a b Hab) as [L|L]; [|rewrite L; lra]. apply Rlt_le, FS; trivial. }
  assert (SS : arcsine (F (nth 0 (rsort l) 0)) < arcsine (F (nth (n - 1) (rsort l) 0))).
  { pose proof (HI 0%nat ltac:(lia)). pose proof (HI (n - 1)%nat ltac:(lia)). apply arcsine_strict; [apply FR; trivial| |apply FR; trivial]. apply FS; trivial.
    assert (K : forall z, In z l -> nth 0 (rsort l) 0 <= z <= nth (n - 1) (rsort l) 0).
    { intros z Hz. apply rsort_in in Hz. destruct (In_nth _ _ 0 Hz) as (k & Hk & <-). rewrite rsort_length in Hk. fold n in Hk. split; apply Mono; lia. }
    pose proof (K x Hx). pose proof (K y Hy). lra. }
  set (r := fun i => arcsine ((INR i + 1 / 2) / INR n)) in *.
  assert (RS : forall a b, (a < b < n)%nat -> r a < r b).
  { intros a b Hab. unfold r. assert (INR a < INR b) by (apply lt_INR; lia). assert (INR b + 1 <= INR n) by (rewrite <- S_INR; apply le_INR; lia). pose proof (pos_INR a).
    assert (0 < / INR n) by now apply Rinv_0_lt_compat. apply arcsine_strict.
    - apply Rmult_le_pos; lra.
    - apply Rmult_lt_compat_r; lra.
    - apply (Rmult_le_reg_r (INR n)); trivial. unfold Rdiv. rewrite Rmult_assoc, Rinv_l; lra. }
  replace (arcsine (1 - 1 / (2 * INR n))) with (r (n - 1)%nat) by (unfold r; f_equal; rewrite minus_INR by lia; cbn [INR]; field; lra).
  replace (arcsine (1 / (2 * INR n))) with (r 0%nat) by (unfold r; f_equal; cbn [INR]; field; lra).
  fold (r i) in E. set (s := fun i => arcsine (F (nth i (rsort l) 0))) in *. fold (s i) in E. fold (s 0%nat) (s (n - 1)%nat). fold (s 0%nat) (s (n - 1)%nat) in SS.
  pose proof (SM 0%nat i ltac:(lia)) as S0. pose proof (SM i (n - 1)%nat ltac:(lia)) as S1. fold (s i) (s 0%nat) (s (n - 1)%nat) in S0, S1.
  rewrite E. unfold Rabs. destruct (Rcase_abs (r i - s i)) as [H|H].
  - eapply Rlt_le_trans; [|apply Rmax_r]. destruct (Nat.eq_dec i 0) as [-> |N]; [lra|]. pose proof (RS 0%nat i ltac:(lia)). lra.
  - eapply Rlt_le_trans; [|apply Rmax_l]. destruct (Nat.eq_dec i (n - 1)) as [-> |N]; [lra|]. pose proof (RS i (n - 1)%nat ltac:(lia)). lra.
Qed.
