(** Model of statistics/goodness_of_fit/beta.py.

    Conventions as in NormModel.v.  [B a b x] stands for scipy.stats.beta.cdf(x, a, b) (logcdf and logsf are its
    logarithms), [psi] and [betaln] for the functions of scipy.special; what theorems need about them is [beta_law]
    (BetaSpec.v). *)
From Coq Require Import String.
From Verif Require Import Base DecModel EdfModel GraphModel ExpModel NormModel.

(** 28-34 *)
Definition beta_ctor (alpha beta : R) : result (R * R) :=
  if Rleb alpha 0 then Raise ValueError else if Rleb beta 0 then Raise ValueError else Ok (alpha, beta).
(** 736-741 *)
Definition beta_mode_ctor (alpha beta : R) : result (R * R) :=
  if Rleb alpha 1 then Raise ValueError else if Rleb beta 1 then Raise ValueError else beta_ctor alpha beta.
(** 41-46, called first by every class *)
Definition beta_validated (f : list R -> outcome) (rvs : list R) : outcome :=
  if existsb (fun x => Rltb x 0 || Rltb 1 x) rvs then Raise ValueError else f rvs.
(** 487-489 *)
Definition beta_mean (a b : R) : R := a / (a + b).
Definition beta_var (a b : R) : R := a * b / ((a + b) ^ 2 * (a + b + 1)).
(** 478-498; the variance (ddof=1) of fewer than two observations is nan *)
Definition mb_beta (a b : R) (rvs : list R) : outcome :=
  let n := len rvs in
  let mean_diff := sqrt n * (mean rvs - beta_mean a b) / sqrt (beta_var a b) in
  let var_diff := sqrt n * (ssq rvs / (n - 1) - beta_var a b) / sqrt (beta_var a b) in
  num (1 <? length rvs)%nat (mean_diff ^ 2 + var_diff ^ 2).
(** scipy.stats.skew and kurtosis (fisher) with bias=False; nan on constant samples *)
Definition skew_unbiased (l : list R) : R :=
  if (2 <? length l)%nat then sqrt (len l * (len l - 1)) / (len l - 2) * skewness l else skewness l.
Definition kurtosis_unbiased (l : list R) : R :=
  if (3 <? length l)%nat
  then 1 / (len l - 2) / (len l - 3) * ((len l ^ 2 - 1) * kurt l - 3 * (len l - 1) ^ 2) else kurt l - 3.
(** 553-566 *)
Definition beta_skewness (a b : R) : R := 2 * (b - a) * sqrt (a + b + 1) / ((a + b + 2) * sqrt (a * b)).
Definition beta_kurtosis (a b : R) : R :=
  6 * ((a - b) ^ 2 * (a + b + 1) - a * b * (a + b + 2)) / (a * b * (a + b + 2) * (a + b + 3)).
(** 542-574 *)
Definition sk_beta (a b : R) (rvs : list R) : outcome :=
  num (varying rvs) (len rvs / 6 * (skew_unbiased rvs - beta_skewness a b) ^ 2
                     + len rvs / 24 * (kurtosis_unbiased rvs - beta_kurtosis a b) ^ 2).
(** 625; np.log(0) is -inf, and exp(-inf) is 0 *)
Definition geometric_mean (rvs : list R) : R := if existsb (fun x => Reqb x 0) rvs then 0 else exp (mean (map ln rvs)).
(** 697-706 with the default window m = n // 4 *)
Definition window_range (s : list R) (m i : nat) : R := nth (Nat.min (length s - 1) (i + m)) s 0 - nth (i - m) s 0.
Definition vasicek (s : list R) : R :=
  let n := length s in let m := (n / 4)%nat in
  Rsum (map (fun i => if Rltb 0 (window_range s m i) then ln (window_range s m i * INR n / (2 * INR m)) else 0) (seq 0 n)) / INR n.
(** 780: np.linspace(0.01, 0.99, 200) *)
Definition mode_grid : list R := map (fun i => 0.01 + 0.98 * INR i / 199) (seq 0 200).
(** 779-781: gaussian_kde with Scott's factor n^(-1/5); its constant positive factor does not change the argmax *)
Definition kde (rvs : list R) (x : R) : R :=
  let h2 := ssq rvs / (len rvs - 1) * Rpower (len rvs) (- (1 / 5)) ^ 2 in
  Rsum (map (fun xi => exp (- (x - xi) ^ 2 / (2 * h2))) rvs).
(** np.argmax: the first maximiser *)
Fixpoint argmax_from (f : R -> R) (best : R) (grid : list R) : R :=
  match grid with [] => best | x :: grid' => argmax_from f (if Rltb (f best) (f x) then x else best) grid' end.
Definition argmax_on (f : R -> R) (grid : list R) : R := match grid with [] => 0 | x :: grid' => argmax_from f x grid' end.
Definition sample_mode (rvs : list R) : R := argmax_on (kde rvs) mode_grid.
(** 774-790; gaussian_kde raises ValueError for fewer than two observations and LinAlgError, a ValueError, for a
    constant sample *)
Definition mode_beta (a b : R) (rvs : list R) : outcome :=
  if (length rvs <? 2)%nat || negb (varying rvs) then Raise ValueError
  else num true (sqrt (len rvs) * Rabs (sample_mode rvs - (a - 1) / (a + b - 2))).
(** 310-317: ceil(sqrt n) bins of equal width *)
Definition beta_edges (k : nat) : list R := map (fun i => INR i / INR k) (seq 0 (S k)).

Section Beta.
Variables (B : R -> R -> R -> R) (psi : R -> R) (betaln : R -> R -> R).
(** 304-319; np.histogram refuses zero bins *)
Definition chi2_beta (a b lambda : R) (rvs : list R) : outcome :=
  match rvs with
  | [] => Raise ValueError
  | _ => let k := Nat.sqrt_up (length rvs) in
         let inner := map (fun i => INR (S i) / INR k) (seq 0 (k - 1)) in
         let expected := map (fun d => d * len rvs) (diff (map (B a b) (beta_edges k))) in
         Ok (Some (power_divergence lambda (map INR (histogram inner (rsort rvs))) expected))
  end.
(** 619-645 *)
Definition rt_beta (a b : R) (rvs : list R) : outcome :=
  match rvs with
  | [] => num false 0
  | _ => if Reqb (mean rvs) 0 then Raise ValueError
         else num true (sqrt (len rvs) * Rabs (geometric_mean rvs / mean rvs - exp (psi a - psi (a + b)) / (a / (a + b))))
  end.
(** 711-716 *)
Definition beta_entropy (a b : R) : R :=
  betaln a b - (a - 1) * psi a - (b - 1) * psi b + (a + b - 2) * psi (a + b).
(** 689-721 *)
Definition ent_beta (a b : R) (rvs : list R) : outcome :=
  match rvs with
  | [] => Raise ZeroDivisionError
  | _ => num true (sqrt (len rvs) * Rabs (vasicek (rsort rvs) - beta_entropy a b))
  end.
Record beta_args := BetaArgs { ba_alpha : R; ba_beta : R; ba_alt : alternative; ba_lambda : R }.
Local Open Scope string_scope.
Definition beta_statistics (A : beta_args) : list (string * (list R -> nrun)) :=
  let a := ba_alpha A in let b := ba_beta A in
  let F := B a b in
  let reads f := nreads (beta_validated f) in [
  ("KolmogorovSmirnovBetaGofStatistic", reads (fun rvs => lift (ks_stat F (ba_alt A) rvs)));
  ("AndersonDarlingBetaGofStatistic", reads (fun rvs => Ok (Some (ad_stat F rvs))));
  ("CrammerVonMisesBetaGofStatistic", reads (fun rvs => lift (cvm_stat F rvs)));
  ("LillieforsTestBetaGofStatistic", reads (fun rvs => lift (ks_stat F TWO_TAILED rvs)));
  ("Chi2PearsonBetaGofStatistic", reads (chi2_beta a b (ba_lambda A)));
  ("WatsonBetaGofStatistic", reads (fun rvs => lift (watson_stat F rvs)));
  ("KuiperBetaGofStatistic", reads (fun rvs => lift (kuiper_stat F rvs)));
  ("MomentBasedBetaGofStatistic", reads (mb_beta a b));
  ("SkewnessKurtosisBetaGofStatistic", reads (sk_beta a b));
  ("RatioBetaGofStatistic", reads (rt_beta a b));
  ("EntropyBetaGofStatistic", reads (ent_beta a b));
  ("ModeBetaGofStatistic", reads (mode_beta a b))
].
End Beta.
