(** Model of statistics/goodness_of_fit/gamma.py.

    Conventions as in NormModel.v.  [G a x] stands for scipy.stats.gamma.cdf(x, a) and [Q a p] for
    scipy.stats.gamma.ppf(p, a); scipy divides x by [scale] and multiplies the quantile by [scale].  What theorems
    need about them is [gamma_law] (GammaSpec.v). *)
From Coq Require Import String.
From Verif Require Import Base DecModel EdfModel GraphModel ExpModel NormModel.

(** 43-56 *)
Definition gamma_ctor (alpha beta : R) : result (R * R) :=
  if Rleb alpha 0 then Raise ValueError else if Rleb beta 0 then Raise ValueError else Ok (alpha, beta).
(** 561-566 *)
Definition gamma_binned_ctor (bins : nat) (alpha beta : R) : result (R * R) :=
  if (bins <? 2)%nat then Raise ValueError else gamma_ctor alpha beta.
(** numbers returned by the graph statistics *)
Definition of_nat (r : result nat) : outcome := let! k := r in Ok (Some (Fin (INR k))).
Definition of_count (r : result (option nat)) : outcome :=
  let! k := r in Ok (Some (match k with Some k => Fin (INR k) | None => NonFinite end)).

Section Gamma.
Variables (G Q : R -> R -> R).
Definition gamma_cdf (a scale x : R) : R := G a (x / scale).
Definition gamma_ppf (a scale p : R) : R := Q a p * scale.
(** 167-192: for one observation the variance (ddof=1) is nan, [var <= 0] is False and the value is nan *)
Definition lillie_gamma (rvs : list R) : outcome :=
  match rvs with
  | [] => Raise ValueError
  | [x] => if Rleb x 0 then Raise ValueError else num false 0
  | _ => let m := mean rvs in
         let var := ssq rvs / (len rvs - 1) in
         if Rleb m 0 || Rleb var 0 then Raise ValueError
         else lift (ks_stat (gamma_cdf (m ^ 2 / var) (var / m)) TWO_TAILED rvs)
  end.
(** 783-784 *)
Definition ppcc_scores (alpha beta : R) (n : nat) : list R :=
  map (fun i => gamma_ppf alpha (1 / beta) ((INR (S i) - 0.375) / (INR n + 0.25))) (seq 0 n).
(** 768-794 *)
Definition ppcc_gamma (alpha beta : R) (rvs : list R) : outcome :=
  if (length rvs <? 2)%nat then Raise ValueError
  else let sample := rsort rvs in
       let expected := ppcc_scores alpha beta (length rvs) in
       let numerator := Rsum (map (fun p => (fst p - mean sample) * (snd p - mean expected)) (combine sample expected)) in
       let denominator := sqrt (ssq sample * ssq expected) in
       if Reqb denominator 0 then Raise ValueError else num true (1 - numerator / denominator).
Record gamma_args := GammaArgs { ga_alpha : R; ga_beta : R; ga_alt : alternative; ga_bins : nat; ga_power : R }.
Local Open Scope string_scope.
Definition gamma_statistics (A : gamma_args) : list (string * (list R -> nrun)) :=
  let F := gamma_cdf (ga_alpha A) (1 / ga_beta A) in
  let binned lambda := nreads (fun rvs => let! v := binned_stat (gamma_ppf (ga_alpha A) (1 / ga_beta A)) lambda (ga_bins A) rvs in Ok (Some v)) in [
  ("KolmogorovSmirnovGammaGofStatistic", nreads (fun rvs => lift (ks_stat F (ga_alt A) rvs)));
  ("LillieforsGammaGofStatistic", nreads lillie_gamma);
  ("AndersonDarlingGammaGofStatistic", nreads (fun rvs => Ok (Some (ad_stat F rvs))));
  ("CramerVonMisesGammaGofStatistic", nreads (fun rvs => lift (cvm_stat F rvs)));
  ("WatsonGammaGofStatistic", nreads (fun rvs => lift (watson_gamma_stat F rvs)));
  ("KuiperGammaGofStatistic", nreads (fun rvs => lift (kuiper_stat F rvs)));
  ("GreenwoodGammaGofStatistic", nreads (fun rvs => lift (greenwood_stat F rvs)));
  ("MoranGammaGofStatistic", nreads (fun rvs => lift (moran_stat F rvs)));
  ("MinToshiyukiGammaGofStatistic", nreads (fun rvs => Ok (Some (mt_stat F rvs))));
  ("Chi2PearsonGammaGofStatistic", binned 1);
  ("LikelihoodRatioGammaGofStatistic", binned 0);
  ("CressieReadGammaGofStatistic", binned (ga_power A));
  ("ProbabilityPlotCorrelationGammaGofStatistic", nreads (ppcc_gamma (ga_alpha A) (ga_beta A)));
  ("GraphEdgesNumberGammaGofStatistic", nreads (fun rvs => of_nat (gamma_graph F (edges_stat dist_base) rvs)));
  ("GraphMaxDegreeGammaGofStatistic", nreads (fun rvs => of_nat (gamma_graph F (max_degree_stat dist_base) rvs)));
  ("GraphAverageDegreeGammaGofStatistic", nreads (fun rvs => let! v := gamma_graph F (average_degree_stat dist_base) rvs in Ok (Some v)));
  ("GraphConnectedComponentsGammaGofStatistic", nreads (fun rvs => of_count (gamma_graph F (components_stat dist_base) rvs)));
  ("GraphCliqueNumberGammaGofStatistic",
    nreads (fun rvs => let! p := gamma_graph F (clique_stat dist_base) rvs in Ok (Some (Fin (IZR (snd p))))));
  ("GraphIndependenceNumberGammaGofStatistic",
    nreads (fun rvs => let! p := gamma_graph F (independence_stat PyList dist_base) rvs in Ok (Some (Fin (INR (snd p))))))
].
End Gamma.
