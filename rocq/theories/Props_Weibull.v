(** Properties of the Weibull statistics *)
From Coq Require Import String.
From Verif Require Import Base DecModel EdfModel EdfSpec GraphModel RegistryModel ExpModel ExpSpec NormModel WeibullModel WeibullSpec SamplerSpec Analysis EdfProofs EdfRotProofs EdfPowerProofs NormProofs NormRangeProofs NormFiniteProofs NormAffProofs NormBoundProofs NormReflProofs EdfClaims EdfMtClaims ExpClaims ExpProofs WeibullProofs WeibullInvProofs WeibullFitProofs WeibullRangeProofs WeibullMoreProofs ExpRangeProofs WeibullClaims.
From Coq Require Import Lra Lia.
Local Open Scope string_scope.
Local Open Scope R_scope.

(** the table contains every Weibull class of the registry *)
Theorem C54_weibull_complete : forall minimise Gam gumbel_fit A c, In c stat_classes -> sc_dist c = WEIBULL ->
  In (sc_name c) (map fst (weibull_statistics minimise Gam gumbel_fit A)).
Proof. exact C54_weibull_complete_holds. Qed.
Print Assumptions C54_weibull_complete.
(** *** C47, C48, C53, C80 *)
Theorem C47_weibull : forall minimise Gam gumbel_fit A l, valid_args A -> wa_alt A = TWO_TAILED -> l <> [] ->
  exists f g d, In ("KolmogorovSmirnovWeibullGofStatistic", f) (weibull_statistics minimise Gam gumbel_fit A) /\
     In ("LillieforsWeibullGofStatistic", g) (weibull_statistics minimise Gam gumbel_fit A) /\
     nvalue (f l) = Ok (Some (Fin d)) /\ nvalue (g l) = Ok (Some (Fin d)) /\
     supremum (fun x => Rabs (edf l x - SamplerModel.generate_weibull_cdf (wa_a A) (wa_k A) x)) d.
Proof. exact C47_weibull_holds. Qed.
Print Assumptions C47_weibull.
Theorem C48_weibull : forall minimise Gam gumbel_fit A name f l v, valid_args A -> wa_alt A = TWO_TAILED -> l <> [] ->
  In (name, f) (weibull_statistics minimise Gam gumbel_fit A) -> nvalue (f l) = Ok (Some (Fin v)) ->
  (In name ["KolmogorovSmirnovWeibullGofStatistic"; "LillieforsWeibullGofStatistic"] -> 1 / (2 * len l) <= v <= 1) /\
  (In name ["CrammerVonMisesWeibullGofStatistic"; "WatsonWeibullGofStatistic"] -> 1 / (12 * len l) <= v <= len l / 3).
Proof. exact C48_weibull_holds. Qed.
Print Assumptions C48_weibull.
Theorem C53_weibull : forall minimise Gam gumbel_fit A f l, valid_args A -> all_positive l -> (exists x y, In x l /\ In y l /\ x <> y) ->
  In ("Chi2PearsonWeibullGofStatistic", f) (weibull_statistics minimise Gam gumbel_fit A) -> exists v, nvalue (f l) = Ok (Some (Fin v)) /\ 0 <= v.
Proof. exact C53_weibull_holds. Qed.
Print Assumptions C53_weibull.
Theorem C80_weibull : forall minimise Gam gumbel_fit A f l, valid_args A -> l <> [] ->
  In ("MinToshiyukiWeibullGofStatistic", f) (weibull_statistics minimise Gam gumbel_fit A) ->
  (all_positive l -> exists v, nvalue (f l) = Ok (Some (Fin v)) /\ / sqrt (len l) <= v) /\
  (nvalue (f l) = Ok (Some NonFinite) <-> exists x, In x l /\ x <= 0).
Proof. exact C80_weibull_holds. Qed.
Print Assumptions C80_weibull.
(** *** C54, C64 *)
Theorem C54_weibull : forall minimise Gam gumbel_fit A name f l l', In (name, f) (weibull_statistics minimise Gam gumbel_fit A) ->
  ~ In name order_dependent_weibull -> Permutation l l' -> nvalue (f l) = nvalue (f l').
Proof. exact C54_weibull_holds. Qed.
Print Assumptions C54_weibull.
Theorem C64_weibull : forall minimise Gam gumbel_fit A name f l, In (name, f) (weibull_statistics minimise Gam gumbel_fit A) -> nsample_after (f l) = l.
Proof. exact C64_weibull_holds. Qed.
Print Assumptions C64_weibull.
(** the RSB statistic pairs the observations with the plotting positions in the order in which they arrive *)
Theorem C54_rsb_weibull_refuted : forall minimise Gam gumbel_fit A f, In ("RSBWeibullGofStatistic", f) (weibull_statistics minimise Gam gumbel_fit A) ->
  Permutation [1; exp 1; exp 2] [exp 1; 1; exp 2] /\ nvalue (f [1; exp 1; exp 2]) <> nvalue (f [exp 1; 1; exp 2]).
Proof. exact C54_rsb_weibull_refuted_holds. Qed.
Print Assumptions C54_rsb_weibull_refuted.
(** *** C61 *)
(** x -> x^c with k -> k/c leaves the statistics that use the parameters through the distribution function unchanged *)
Theorem C61_weibull : forall minimise Gam gumbel_fit a k alt c name f f' l, 0 < c -> all_positive l -> In name cdf_based_weibull ->
  In (name, f) (weibull_statistics minimise Gam gumbel_fit (WeibullArgs a k alt)) ->
  In (name, f') (weibull_statistics minimise Gam gumbel_fit (WeibullArgs a (k / c) alt)) ->
  nvalue (f' (map (fun x => Rpower x c) l)) = nvalue (f l).
Proof. exact C61_weibull_holds. Qed.
Print Assumptions C61_weibull.
(** *** C62 *)
Theorem C62_weibull : forall minimise Gam gumbel_fit A name f l v, in_bounds minimise -> all_positive l ->
  In (name, f) (weibull_statistics minimise Gam gumbel_fit A) -> nvalue (f l) = Ok (Some (Fin v)) ->
  (name = "RSBWeibullGofStatistic" -> 0 <= v <= len l) /\ (name = "TikuSinghWeibullGofStatistic" -> 0 <= v <= 2) /\
  (In name ["MSFWeibullGofStatistic"; "REJGWeibullGofStatistic"] -> 0 <= v <= 1).
Proof. exact C62_weibull_holds. Qed.
Print Assumptions C62_weibull.
(** *** C63 *)
(** every class that can work returns a finite number on three or more different positive observations *)
Theorem C63_weibull : forall minimise Gam gumbel_fit A name f l, in_bounds minimise -> valid_args A -> all_positive l -> NoDup l -> (3 <= length l)%nat ->
  In (name, f) (weibull_statistics minimise Gam gumbel_fit A) -> ~ In name broken_weibull -> exists v, nvalue (f l) = Ok (Some (Fin v)).
Proof. exact C63_weibull_holds. Qed.
Print Assumptions C63_weibull.
(** the Anderson-Darling and both Laplace transform classes fail on every sample *)
Theorem C63_weibull_broken_refuted : forall minimise Gam gumbel_fit A name f l, In (name, f) (weibull_statistics minimise Gam gumbel_fit A) -> In name broken_weibull ->
  (exists e, nvalue (f l) = Raise e) /\
  (In name ["LaplaceTransform2WeibullGofStatistic"; "LaplaceTransform3WeibullGofStatistic"] -> nvalue (f l) = Raise ValueError) /\
  (name = "AndersonDarlingWeibullGofStatistic" -> all_positive l -> (exists p, gumbel_fit (rsort (map ln l)) = Ok p) -> nvalue (f l) = Raise TypeError).
Proof. exact C63_weibull_broken_refuted_holds. Qed.
Print Assumptions C63_weibull_broken_refuted.
(** on two observations LOS divides by zero; on one it returns 1 and on none 2, whatever the data *)
Theorem C63_weibull_los_short : forall minimise Gam gumbel_fit A f x y, In ("LOSWeibullGofStatistic", f) (weibull_statistics minimise Gam gumbel_fit A) ->
  nvalue (f [x; y]) = Raise ZeroDivisionError /\ nvalue (f [x]) = Ok (Some (Fin 1)) /\ nvalue (f []) = Ok (Some (Fin 2)).
Proof. exact C63_weibull_los_short_holds. Qed.
Print Assumptions C63_weibull_los_short.
(** *** C65 *)
(** the Lilliefors value is the largest distance between the distribution functions, but both tails reject *)
Theorem C65_weibull_lilliefors_refuted : declares "LillieforsWeibullGofStatistic" TWO_TAILED /\
  forall minimise Gam gumbel_fit A f l, valid_args A -> l <> [] -> In ("LillieforsWeibullGofStatistic", f) (weibull_statistics minimise Gam gumbel_fit A) ->
  exists d, nvalue (f l) = Ok (Some (Fin d)) /\ supremum (fun x => Rabs (edf l x - SamplerModel.generate_weibull_cdf (wa_a A) (wa_k A) x)) d.
Proof. exact C65_weibull_lilliefors_refuted_holds. Qed.
Print Assumptions C65_weibull_lilliefors_refuted.
(** the SPP value is a largest distance between arcsine scores, so zero for a perfect fit, but small values reject *)
Theorem C65_weibull_spp_refuted : declares "SPPWeibullGofStatistic" LEFT /\
  forall minimise Gam gumbel_fit A f l v, in_bounds minimise -> all_positive l -> (exists x y, In x l /\ In y l /\ x <> y) ->
  In ("SPPWeibullGofStatistic", f) (weibull_statistics minimise Gam gumbel_fit A) -> nvalue (f l) = Ok (Some (Fin v)) ->
  exists eta beta, 0 < eta /\ 0 < beta /\ forall d, stabilised_distance (weibull_law eta beta) l d -> d < v.
Proof. exact C65_weibull_spp_refuted_holds. Qed.
Print Assumptions C65_weibull_spp_refuted.
(** *** C89 *)
(** a change of scale and shape, x -> c x^b, leaves the statistics for the composite hypothesis unchanged *)
Theorem C89_weibull_invariant : forall minimise Gam gumbel_fit A name f c b l, in_bounds minimise -> 0 < c -> 0 < b -> all_positive l -> In name composite_weibull ->
  In (name, f) (weibull_statistics minimise Gam gumbel_fit A) -> nvalue (f (powered c b l)) = nvalue (f l).
Proof. exact C89_weibull_invariant_holds. Qed.
Print Assumptions C89_weibull_invariant.
(** the four-digit constants of the Shapiro-Brain type weights do not cancel: for every sample some change of scale changes the SB statistic *)
Theorem C89_sb_weibull_refuted : forall minimise Gam gumbel_fit A name f l, all_positive l -> NoDup l -> (2 <= length l)%nat ->
  In name ["SbWeibullGofStatistic"; "SBWeibullGofStatistic"] -> In (name, f) (weibull_statistics minimise Gam gumbel_fit A) ->
  exists c, 1 < c /\ nvalue (f (map (fun x => c * x) l)) <> nvalue (f l).
Proof. exact C89_sb_weibull_refuted_holds. Qed.
Print Assumptions C89_sb_weibull_refuted.
(** and every change of scale changes the OK statistic *)
Theorem C89_ok_weibull_refuted : forall minimise Gam gumbel_fit A f c l v w, 0 < c -> c <> 1 -> all_positive l -> NoDup l -> (3 <= length l)%nat ->
  In ("OKWeibullGofStatistic", f) (weibull_statistics minimise Gam gumbel_fit A) ->
  nvalue (f l) = Ok (Some (Fin v)) -> nvalue (f (map (fun x => c * x) l)) = Ok (Some (Fin w)) ->
  v <> w /\ (1 < c -> v < w).
Proof. exact C89_ok_weibull_refuted_holds. Qed.
Print Assumptions C89_ok_weibull_refuted.
(** *** C90 *)
(** for the shape it returns, MLEst returns the scale of largest likelihood *)
Theorem C90_mlest_scale : forall minimise l, in_bounds minimise -> all_positive l -> l <> [] ->
  exists e, mlest minimise l = Ok e /\ 0 < es_eta e /\ 0.0001 <= es_beta e <= 50 /\
  forall eta, 0 < eta -> weibull_loglik eta (es_beta e) l <= weibull_loglik (es_eta e) (es_beta e) l.
Proof. exact C90_mlest_scale_holds. Qed.
Print Assumptions C90_mlest_scale.
(** the sign of the term 1/t is wrong: the function it minimises is 2/t minus the score, at least 1/t, so it is not zero where the score is *)
Theorem C90_mlest_objective_refuted : forall l t, 0 < t -> l <> [] ->
  mlest_f1 (rsort (map (fun x => - ln x) l)) t = 2 / t - shape_score l t /\ 1 / t <= mlest_f1 (rsort (map (fun x => - ln x) l)) t /\
  (shape_score l t = 0 -> mlest_f1 (rsort (map (fun x => - ln x) l)) t = 2 / t).
Proof. exact C90_mlest_objective_refuted_holds. Qed.
Print Assumptions C90_mlest_objective_refuted.
(** with an exact minimiser the shape of every sample of two observations is the upper bound 50, which is not the maximum likelihood shape of (1, e) *)
Theorem C90_mlest_shape_refuted : forall minimise x y, 0 < x -> 0 < y ->
  (let f := mlest_f1 (rsort (map (fun x => - ln x) [x; y])) in let m := minimise f 0.0001 50 in
   0.0001 <= m <= 50 /\ forall t, 0.0001 <= t <= 50 -> f m <= f t) ->
  (exists eta z, mlest minimise [x; y] = Ok (Estimates eta 50 z)) /\ shape_score [1; exp 1] 50 < 0.
Proof. exact C90_mlest_shape_refuted_holds. Qed.
Print Assumptions C90_mlest_shape_refuted.
(** *** C91 *)
(** the plotting positions ascend and the fitted values descend, so only the extreme observations count *)
Theorem C91_spp_value : forall minimise Gam gumbel_fit A f l, in_bounds minimise -> all_positive l -> l <> [] ->
  In ("SPPWeibullGofStatistic", f) (weibull_statistics minimise Gam gumbel_fit A) ->
  exists e, mlest minimise l = Ok e /\
  (let F := weibull_law (es_eta e) (es_beta e) in
   nvalue (f l) = Ok (Some (Fin (Rmax (arcsine (1 - 1 / (2 * len l)) - arcsine (F (Rminl 0 l))) (arcsine (F (Rmaxl 0 l)) - arcsine (1 / (2 * len l))))))).
Proof. exact C91_spp_value_holds. Qed.
Print Assumptions C91_spp_value.
Theorem C91_spp_pairing_refuted : forall minimise Gam gumbel_fit A f l v e d, in_bounds minimise -> all_positive l -> (exists x y, In x l /\ In y l /\ x <> y) ->
  In ("SPPWeibullGofStatistic", f) (weibull_statistics minimise Gam gumbel_fit A) -> nvalue (f l) = Ok (Some (Fin v)) -> mlest minimise l = Ok e ->
  stabilised_distance (weibull_law (es_eta e) (es_beta e)) l d -> d < v.
Proof. exact C91_spp_pairing_refuted_holds. Qed.
Print Assumptions C91_spp_pairing_refuted.
(** *** C92 *)
Theorem C92_weibull_nonnegative : forall minimise Gam gumbel_fit A name f l v, in_bounds minimise -> valid_args A -> all_positive l -> (exists x y, In x l /\ In y l /\ x <> y) ->
  In name ["Chi2PearsonWeibullGofStatistic"; "SbWeibullGofStatistic"; "SBWeibullGofStatistic"; "ST1WeibullGofStatistic"; "ST2WeibullGofStatistic"; "SPPWeibullGofStatistic";
           "MahdiDoostparastWeibullGofStatistic"; "LiaoShimokawaWeibullGofStatistic"; "CabanaQuirozWeibullGofStatistic"] ->
  In (name, f) (weibull_statistics minimise Gam gumbel_fit A) -> nvalue (f l) = Ok (Some (Fin v)) ->
  0 <= v /\ (name = "LiaoShimokawaWeibullGofStatistic" -> 0 < v).
Proof. exact C92_weibull_nonnegative_holds. Qed.
Print Assumptions C92_weibull_nonnegative.
(** the Cabana-Quiroz value is zero exactly when the two empirical transforms agree with the gamma function *)
Theorem C92_cabana_quiroz_zero : forall minimise Gam gumbel_fit A f l v, In ("CabanaQuirozWeibullGofStatistic", f) (weibull_statistics minimise Gam gumbel_fit A) ->
  nvalue (f l) = Ok (Some (Fin v)) ->
  (v = 0 <-> mean (map (fun x => exp (x / 10)) l) = Gam (11 / 10) /\ mean (map (fun x => exp (- x / 50)) l) = Gam (49 / 50)).
Proof. exact C92_cabana_quiroz_zero_holds. Qed.
Print Assumptions C92_cabana_quiroz_zero.
(** the sum in the base class of the Laplace transform statistics is not negative for either type *)
Theorem C92_laplace_nonnegative : forall Gam m a type_ l v, lt_execute Gam m a type_ l = Ok (Some (Fin v)) -> 0 <= v.
Proof. exact C92_laplace_nonnegative_holds. Qed.
Print Assumptions C92_laplace_nonnegative.
(** the Kullback-Leibler value can be negative *)
Theorem C92_kullback_leibler_refuted : forall minimise Gam gumbel_fit A f, In ("KullbackLeiblerWeibullGofStatistic", f) (weibull_statistics minimise Gam gumbel_fit A) ->
  all_positive (exp (-19) :: repeat 1 38 ++ [exp 2]) /\ exists v, nvalue (f (exp (-19) :: repeat 1 38 ++ [exp 2])) = Ok (Some (Fin v)) /\ v < 0.
Proof. exact C92_kullback_leibler_refuted_holds. Qed.
Print Assumptions C92_kullback_leibler_refuted.
Theorem C97_smooth_values : forall minimise Gam gumbel_fit A l v, all_positive l -> l <> [] ->
  let y := map (fun x => - ln x) l in let skewness := mean (map (fun t => ((t - mean y) / sqrt (np_var y)) ^ 3) y) in
  let kurtosis := mean (map (fun t => ((t - mean y) / sqrt (np_var y)) ^ 4) y) in
  (forall f, In ("ST1WeibullGofStatistic", f) (weibull_statistics minimise Gam gumbel_fit A) -> nvalue (f l) = Ok (Some (Fin v)) ->
     v = len l / 20 * (skewness - 1.139547) ^ 2) /\
  (forall f, In ("ST2WeibullGofStatistic", f) (weibull_statistics minimise Gam gumbel_fit A) -> nvalue (f l) = Ok (Some (Fin v)) ->
     v = len l / 219.72 * (kurtosis - 7.55 * skewness + 3.21) ^ 2).
Proof. exact C97_smooth_values_holds. Qed.
Print Assumptions C97_smooth_values.
(** the sum of the Laplace transform classes vanishes exactly when the empirical transform agrees with the gamma function
    at -1, -99/100, ..., -1/100 *)
Theorem C97_laplace_zero : forall Gam a l v, lt_execute Gam 100 a "LT2_WEIBULL" l = Ok (Some (Fin v)) ->
  (v = 0 <-> forall i, (1 <= i <= 100)%nat -> mean (map (fun x => exp (x * (INR i / 100))) l) = Gam (1 + INR i / 100)).
Proof. exact C97_laplace_zero_holds. Qed.
Print Assumptions C97_laplace_zero.
(** the Kullback-Leibler value follows the scale of the sample through its mean and mean logarithm only *)
Theorem C97_kullback_leibler_scale : forall minimise Gam gumbel_fit A f c l v, 0 < c -> all_positive l ->
  In ("KullbackLeiblerWeibullGofStatistic", f) (weibull_statistics minimise Gam gumbel_fit A) -> nvalue (f l) = Ok (Some (Fin v)) ->
  nvalue (f (map (fun x => c * x) l)) = Ok (Some (Fin (v + (c - 1) * mean l - ln c))).
Proof. exact C97_kullback_leibler_scale_holds. Qed.
Print Assumptions C97_kullback_leibler_scale.
(** plotting positions: the scores of Sb, SB and OK are exponential quantiles, those of REJG quantiles of the smallest
    extreme value distribution at positions symmetric about 1/2 *)
Theorem C97_plotting_positions : forall n beta,
  (forall i, (i < n - 1)%nat -> nth i (wpp_w n) 0 = - ln (1 - INR (S i) / (INR n + 1))) /\
  exists p, (forall i, (i < n)%nat -> nth i (rejg_scores n beta) 0 = ln (- ln (1 - p i)) / beta /\ 0 < p i < 1 /\ p i + p (n - 1 - i)%nat = 1) /\
            (forall i j, (i < j < n)%nat -> p i < p j).
Proof. exact C97_plotting_positions_holds. Qed.
Print Assumptions C97_plotting_positions.
(** the cells of the chi-square class for a sample of equal values are laid out symmetrically about the value *)
Theorem C97_constant_cells : forall x n k i, (1 <= k)%nat -> (i <= k)%nat -> let l := repeat x (S n) in
  chi2_edge l k i + chi2_edge l k (k - i) = 2 * x /\ chi2_edge l k k - chi2_edge l k 0 = 1.
Proof. exact C97_constant_cells_holds. Qed.
Print Assumptions C97_constant_cells.
(** not vacuous: three different positive observations, the default parameters and a minimiser that stays inside its bounds *)
Example weibull_minimiser : in_bounds (fun _ lo _ => lo).
Proof. intros f lo hi H. lra. Qed.
Example weibull_parameters : valid_args (WeibullArgs 1 5 TWO_TAILED).
Proof. split; cbn; lra. Qed.
Example weibull_sample : all_positive [1; 2; 3] /\ NoDup [1; 2; 3] /\ (exists x y, In x [1; 2; 3] /\ In y [1; 2; 3] /\ x <> y).
Proof.
  split; [intros x [<-|[<-|[<-|[]]]]; lra|]. split; [|exists 1, 2; repeat split; [now left|right; now left|lra]].
  repeat constructor; intros H; repeat destruct H as [H|H]; trivial; lra.
Qed.
Example weibull_runs : exists f v, In ("OKWeibullGofStatistic", f) (weibull_statistics (fun _ lo _ => lo) (fun _ => 1) (fun _ => Raise ValueError) (WeibullArgs 1 5 TWO_TAILED)) /\
  nvalue (f [1; 2; 3]) = Ok (Some (Fin v)).
Proof.
  destruct weibull_sample as (P & D & _). eexists.
  destruct (C63_weibull (fun _ lo _ => lo) (fun _ => 1) (fun _ => Raise ValueError) (WeibullArgs 1 5 TWO_TAILED) "OKWeibullGofStatistic" (nreads ok_weibull) [1; 2; 3]
    weibull_minimiser weibull_parameters P D ltac:(simpl; lia)) as (v & E).
  - cbn [weibull_statistics In]. repeat (first [left; reflexivity|right]).
  - intros N. cbn [broken_weibull In] in N. repeat destruct N as [N|N]; trivial; discriminate N.
  - exists v. split; [|exact E]. cbn [weibull_statistics In]. repeat (first [left; reflexivity|right]).
Qed.
(** the invariance theorem talks about genuinely different samples *)
Example weibull_transformed : powered 2 1 [1] = [2] /\ [1] <> [2].
Proof. split; [unfold powered; cbn; rewrite Rpower_1 by lra; f_equal; lra|intros E; injection E; lra]. Qed.
(** the correctly paired distance exists *)
Example weibull_paired : exists d, stabilised_distance (fun _ => 1 / 2) [1; 2] d.
Proof.
  exists (Rmax (Rabs (arcsine ((INR 0 + 1 / 2) / INR 2) - arcsine (1 / 2))) (Rabs (arcsine ((INR 1 + 1 / 2) / INR 2) - arcsine (1 / 2)))). split.
  - destruct (Rle_dec (Rabs (arcsine ((INR 0 + 1 / 2) / INR 2) - arcsine (1 / 2))) (Rabs (arcsine ((INR 1 + 1 / 2) / INR 2) - arcsine (1 / 2)))) as [L|L];
    [exists 1%nat|exists 0%nat]; (split; [simpl; lia|]); cbn [length]; [rewrite Rmax_right|rewrite Rmax_left]; try lra; reflexivity.
  - intros i Hi. cbn [length] in *. destruct i as [|[|i]]; [apply Rmax_l|apply Rmax_r|lia].
Qed.
