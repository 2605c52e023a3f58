(** Model of statistics/goodness_of_fit/log_normal.py.

    As in NormModel.v samples are numpy arrays of reals, numpy inf and nan are [NonFinite].  scipy.integrate.quad is
    read as the Riemann integral. *)
From Coq Require Import String.
From Coquelicot Require Import Coquelicot.
From Verif Require Import Base DecModel EdfModel GraphModel RegistryModel NormalLaw ExpModel NormModel.

(** 25-32 *)
Definition lognormal_ctor (s scale : R) : result (R * R) :=
  if Rleb s 0 then Raise ValueError else if Rleb scale 0 then Raise ValueError else Ok (s, scale).
(** scipy.stats.lognorm.cdf(x, s=s, scale=scale) *)
Definition lognorm_cdf (s scale x : R) : R := if Rleb x 0 then 0 else norm_cdf (ln (x / scale) / s).
(** 102-111 *)
Definition ks_lognorm (s scale : R) (alt : alternative) (rvs : list R) : outcome :=
  lift (ks_do_execute alt (map (lognorm_cdf s scale) (rsort rvs))).
(** 141-150 *)
Definition cvm_lognorm (s scale : R) (rvs : list R) : outcome :=
  lift (cvm_do_execute (map (lognorm_cdf s scale) (rsort rvs))).
(** 184-208 *)
Definition qm_lognorm (s scale : R) (rvs : list R) : outcome := num true (qm_lognormal_stat (lognorm_cdf s scale) rvs).
(** np.any(rvs <= 0): 252, 380, 498 *)
Definition any_nonpositive (rvs : list R) : bool := existsb (fun x => Rleb x 0) rvs.

(** ** tests based on Kullback-Leibler divergences
    258-262, 385-388: sigma_hat = np.std(np.log(rvs)), Y = rvs ** (1 / sigma_hat) *)
Definition kl_sigma_hat (rvs : list R) : R := sqrt (np_var (map ln rvs)).
Definition kl_y (rvs : list R) : list R := map (fun x => Rpower x (1 / kl_sigma_hat rvs)) rvs.
(** the constant C: 272, 398, 424 *)
Definition kl_c (y : list R) : R :=
  let log_y := map ln y in
  - mean (map (fun v => v ^ 3) log_y) + 3 * mean (map (fun v => v ^ 2) log_y) * mean log_y - 2 * mean log_y ^ 3.
(** D_n_r: 270-279, 396-405 *)
Definition kl_d (y : list R) (r : R) : R :=
  if Rltb (Rabs r) (/ 10 ^ 8) then sqrt 6 / 6 * kl_c y * r ^ 3
  else let yr := map (fun v => Rpower v r) y in
       2 * ln (mean yr) - r * mean (map ln y) - r * mean (map (fun v => Rpower v r * ln v) y) / mean yr.
(** sigma_r: 282-290, 408-416 *)
Definition kl_expr (r : R) : R := exp (r ^ 2) * (r ^ 4 - 3 * r ^ 2 + 4) - (4 + r ^ 2).
Definition kl_sigma (r : R) : R :=
  if Rltb (Rabs r) (/ 10 ^ 8) then Rabs r ^ 3 / sqrt 6
  else if Rltb (kl_expr r) (/ 10 ^ 16) then / 10 ^ 8 else sqrt (kl_expr r).
(** np.linspace(-5, 5, 1000): 293 *)
Definition kl_grid : list R := map (fun i => -5 + INR i * (10 / 999)) (seq 0 1000).
(** the points where [sigma > 1e-10]: 295-299 *)
Definition kl_points : list R := filter (fun r => Rltb (/ 10 ^ 10) (kl_sigma r)) kl_grid.
(** 1 / sigma_hat is inf for constant samples (and nan for empty ones): then every D is nan, except when all
    observations are 1, since 1 ** inf = 1 and every D is 0 *)
Definition kl_degenerate (rvs : list R) : outcome :=
  num (negb (Nat.eqb (length rvs) 0) && forallb (fun x => Reqb x 1) rvs) 0.
(** 243-305 *)
Definition kl_sup (rvs : list R) : outcome :=
  if any_nonpositive rvs then num false 0
  else if Reqb (kl_sigma_hat rvs) 0 then kl_degenerate rvs
  else let y := kl_y rvs in
       let values := map (fun r => Rabs (kl_d y r / kl_sigma r)) kl_points in
       num (negb (Nat.eqb (length values) 0)) (sqrt (len rvs) * Rmaxl 0 values).
(** integrand: 419-428 *)
Definition kl_integrand (y : list R) (r : R) : R :=
  if Rltb (Rabs r) (/ 10 ^ 8) then (kl_c y / 6) ^ 2 else (kl_d y r / kl_sigma r) * (kl_d y r / kl_sigma r).
(** 371-437 *)
Definition kl_int (rvs : list R) : outcome :=
  if any_nonpositive rvs then num false 0
  else if Reqb (kl_sigma_hat rvs) 0 then kl_degenerate rvs
  else num true (len rvs * RInt (kl_integrand (kl_y rvs)) (-5) 5).
(** calculate_critical_value, for n >= 1: 307-337 and 439-470 *)
Definition kl_sup_critical (n alpha : R) : result R :=
  if Reqb alpha 0.05 then Ok (2.67076 - 3.90704 / sqrt n + 1.07162 / n)
  else if Reqb alpha 0.01 then Ok (4.10183 - 7.48001 / sqrt n + 0.638394 * ln n / sqrt n)
  else if Rltb alpha 0.001 || Rltb 0.1 alpha then Raise ValueError
  else Ok (0.48632 - 0.00148063 / alpha - 0.0000699 * n + 0.217752 / sqrt alpha - 2.39217 * sqrt (n / alpha)
           - 0.532872 / (sqrt alpha * n) + 0.179786 * ln (n / alpha) - 0.13083 * ln (alpha * n)).
Definition kl_int_critical (n alpha : R) : result R :=
  if Reqb alpha 0.05 then Ok (-2.88971 - 0.130082 * ln n ^ 2 + 2.71403 * ln n)
  else if Reqb alpha 0.01 then Ok (24.9099 - 31.9302 / sqrt n - 13.2562 * ln n / sqrt n)
  else if Rltb alpha 0.001 || Rltb 0.1 alpha then Raise ValueError
  else Ok (0.880415 + 0.00680135 / alpha - 35.179 * alpha - 0.18045 / (alpha * n) - 0.107479 * n
           + 1.67972 * sqrt (alpha * n) + 0.0119889 * n * ln n + 0.372023 * sqrt (n / alpha)
           - 0.0213414 * sqrt (n / alpha) * ln (n / alpha)).

(** ** the generated classes
    489-504: the logarithms are a new array, so the caller's sample is never modified *)
Definition wrapped (f : list R -> nrun) (s scale : R) (rvs : list R) : nrun :=
  NRun (if any_nonpositive rvs then num false 0
        else nvalue (f (map (fun v => (v - ln scale) / s) (map ln rvs)))) rvs.
(** normal_cls(): default arguments of the constructors of normal.py *)
Definition norm_defaults : norm_args := NormArgs 0 1 TWO_TAILED false (3 / 8).
Local Open Scope string_scope.
(** 551-563 *)
Definition derivable_name (name : string) : bool :=
  negb (existsb (String.eqb name) explicitly_implemented)
  && negb (startswith name "Abstract") && negb (startswith name "Graph").
Definition lognormal_statistics (s scale : R) (alt : alternative) : list (string * (list R -> nrun)) := [
  ("KolmogorovSmirnovLogNormalGofStatistic", nreads (ks_lognorm s scale alt));
  ("CramerVonMiseLogNormalGofStatistic", nreads (cvm_lognorm s scale));
  ("QuesenberryMillerLogNormalGofStatistic", nreads (qm_lognorm s scale));
  ("KLSupremumLogNormalGoFStatistic", nreads kl_sup);
  ("KLIntegralLogNormalGoFStatistic", nreads kl_int)
] ++ map (fun c => (py_replace (fst c) "Normality" "LogNormal", wrapped (snd c) s scale))
       (filter (fun c => derivable_name (fst c)) (normality_statistics norm_defaults)).
